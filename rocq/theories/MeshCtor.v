(** The Mesh constructor as a whole. *)
From Coq Require Import Permutation Relations Sorted.
From Verif Require Import Base Float64 OrientModel MeshModel MeshSpec BaseFacts Float64Facts
  OrientFacts LabelFacts DedupFacts MeshFacts.

(** ** Geometry *)
Lemma same_place_take pts o2n pts' r r' :
  dedup_spec pts o2n pts' -> np_take o2n r = Ok r' -> same_place pts r pts' r'.
Proof.
  intros [Hl Hv _ _] H. apply np_take_ok in H.
  eapply Forall2_impl_all; [|exact H]. intros i i' Hi. cbn beta in Hi.
  destruct (nth_error_total pts i) as [p Hp]; [rewrite <- Hl; eapply nth_error_lt; eauto|].
  destruct (Hv i p Hp) as (j & q & Hj & Hq & E).
  assert (j = i') by congruence; subst. eauto.
Qed.

Lemma same_place_reversed_line pts r pts' r' :
  same_place pts r pts' r' -> same_place pts (reversed_line r) pts' (reversed_line r').
Proof.
  unfold same_place. intros H.
  inversion H as [|a a' l l' Ha H1]; subst; [constructor|].
  inversion H1 as [|b b' l1 l1' Hb H2]; subst; [constructor; auto|].
  inversion H2 as [|c c' l2 l2' Hc H3]; subst; [repeat constructor; auto|].
  inversion H3 as [|d d' l3 l3' Hd H4]; subst; [repeat constructor; auto|].
  inversion H4; subst; simpl; repeat constructor; auto.
Qed.

Lemma same_place_reversed_triangle pts r pts' r' :
  same_place pts r pts' r' -> same_place pts (reversed_triangle r) pts' (reversed_triangle r').
Proof.
  unfold same_place. intros H.
  inversion H as [|a a' l l' Ha H1]; subst; [constructor|].
  inversion H1 as [|b b' l1 l1' Hb H2]; subst; [constructor; auto|].
  inversion H2 as [|c c' l2 l2' Hc H3]; subst; [repeat constructor; auto|].
  inversion H3; subst; simpl; repeat constructor; auto.
Qed.

(** ** Uniform description of [deduplicate] on valid arrays *)
Definition rows_ok (n : nat) (rs : list row) : Prop :=
  forall r, In r rs -> r <> [] /\ forall i, In i r -> i < n.

Lemma deduplicate_uniform o m m' :
  rows_ok (length (m_points m)) (arows (m_lines m)) ->
  rows_ok (length (m_points m)) (arows (m_triangles m)) ->
  deduplicate o m = Ok m' ->
  exists o2n pts' lines tris,
    dedup_spec (m_points m) o2n pts' /\
    mapM (np_take o2n) (arows (m_lines m)) = Ok lines /\
    mapM (np_take o2n) (arows (m_triangles m)) = Ok tris /\
    m' = set_arrays m pts' lines tris.
Proof.
  intros Hl Ht H. destruct (m_points m) as [|p0 ps] eqn:Ep.
  - unfold deduplicate in H. rewrite Ep in H. injection H as <-.
    assert (El : arows (m_lines m) = []).
    { destruct (arows (m_lines m)) as [|r rs]; [reflexivity|exfalso].
      destruct (Hl r (or_introl eq_refl)) as [Hn Hi]. destruct r as [|i r]; [congruence|].
      specialize (Hi i (or_introl eq_refl)). simpl in Hi; lia. }
    assert (Et : arows (m_triangles m) = []).
    { destruct (arows (m_triangles m)) as [|r rs]; [reflexivity|exfalso].
      destruct (Ht r (or_introl eq_refl)) as [Hn Hi]. destruct r as [|i r]; [congruence|].
      specialize (Hi i (or_introl eq_refl)). simpl in Hi; lia. }
    exists [], [], [], []. rewrite El, Et. repeat split.
    + intros [|i] p Hp; discriminate.
    + constructor.
    + intros q [].
    + destruct m as [mp [lw lr] [tw tr] mpl mpt]; unfold set_arrays; simpl in *. subst; reflexivity.
  - rewrite <- Ep in *. apply (deduplicate_ok o m m' H). rewrite Ep; discriminate.
Qed.

Lemma arr_ok_rows ws n a : ~ In 0 ws -> arr_ok ws n a -> rows_ok n (arows a).
Proof.
  intros H0 [Hw Hr] r Hin. destruct (Hr r Hin) as [Hlen Hlt]. split; [|assumption].
  intros ->. simpl in Hlen. apply H0. rewrite Hlen. apply Hw.
  intros E; rewrite E in Hin; contradiction.
Qed.

Lemma filter_rows_ok n f rs : rows_ok n rs -> rows_ok n (filter f rs).
Proof. intros H r Hr. apply filter_In in Hr. apply H; tauto. Qed.

(** ** Position of the survivors *)
Lemma count_true_filter (f : row -> bool) rs : count_true (map f rs) = length (filter f rs).
Proof.
  induction rs as [|r rs IH]; unfold count_true in *; simpl; [reflexivity|].
  destruct (f r); simpl in *; lia.
Qed.

Lemma filter_nth (f : row -> bool) rs : forall i r,
  nth_error rs i = Some r -> f r = true -> nth_error (filter f rs) (rank f rs i) = Some r.
Proof.
  unfold rank. induction rs as [|x rs IH]; intros [|i] r Hr Hf; simpl in *; try discriminate.
  - injection Hr as ->. rewrite Hf. reflexivity.
  - destruct (f x) eqn:Ex; simpl; apply IH; assumption.
Qed.

(** What the constructor does, for every well-formed input and every test result. *)
Record built (o : oracles) (points : list point) (lines triangles : arr2) (pl pt : dict)
    (ens : bool) (m : mesh) : Prop := {
  b_canon : canonical_points (m_points m);
  b_keys : forall k, In k (map pt_key (m_points m)) <-> In k (map (fun p => pt_key (pt_trunc p)) points);
  b_points : forall q, In q (m_points m) -> exists p, In p points /\ q = pt_trunc p;
  b_lw : aw (m_lines m) = aw lines;
  b_tw : aw (m_triangles m) = 3;
  b_lines : Forall2 (fun r r' => same_line points r (m_points m) r') (arows lines) (arows (m_lines m));
  b_tris : Forall2 (fun r r' => same_triangle points r (m_points m) r')
              (filter (survives o points) (arows triangles)) (arows (m_triangles m));
  b_exact : ens = false ->
     Forall2 (fun r r' => same_place points r (m_points m) r') (arows lines) (arows (m_lines m)) /\
     Forall2 (fun r r' => same_place points r (m_points m) r')
              (filter (survives o points) (arows triangles)) (arows (m_triangles m));
  b_pl : m_plines m = pl;
  b_ptkeys : dkeys (m_ptriangles m) = dkeys pt;
  b_pt : forall name v, dget pt name = Some v ->
     exists v', dget (m_ptriangles m) name = Some v' /\
       v' = map (rank (survives o points) (arows triangles)) (survivors o points (arows triangles) v)
}.

Lemma remap_group_survivors o pts tris deg v v' :
  deg = map (fun r => negb (survives o pts r)) tris ->
  remap_group deg v = Ok v' ->
  v' = map (rank (survives o pts) tris) (survivors o pts tris v).
Proof.
  intros -> H. apply remap_group_ok in H.
  assert (Ef : filter (fun i => match nth_error (map (fun r => negb (survives o pts r)) tris) i with
                                | Some d => negb d | None => false end) v
               = survivors o pts tris v).
  { unfold survivors. apply filter_ext. intros i. rewrite nth_error_map.
    destruct (nth_error tris i); simpl; [apply negb_involutive|reflexivity]. }
  rewrite Ef in H. clear Ef. induction H as [|i i' l l' [_ Hi] H IH]; simpl; [reflexivity|].
  rewrite IH. f_equal. rewrite Hi. unfold rank. rewrite map_map.
  rewrite firstn_map. rewrite <- count_true_filter. f_equal. apply map_ext.
  intros r; apply negb_involutive.
Qed.

(** The constructor without its final assertions. *)
Definition pre_mesh (o : oracles) (points : list point) (lines triangles : arr2)
    (plines ptriangles : dict) (ensure : bool) : result mesh :=
  let tris := match arows triangles with [] => mkarr 3 [] | _ => triangles end in
  let m0 := {| m_points := points; m_lines := lines; m_triangles := tris;
               m_plines := plines; m_ptriangles := ptriangles |} in
  m1 <- remove_degenerate o m0 ;;
  m2 <- deduplicate o m1 ;;
  (if ensure then ensure_all o m2 (get_electrodes m2) else Ok m2).

Lemma new_mesh_pre o points lines triangles pl pt ens :
  new_mesh o points lines triangles pl pt ens =
  (m <- pre_mesh o points lines triangles pl pt ens ;; _ <- py_assert (check_mesh m) ;; Ok m).
Proof.
  unfold new_mesh, pre_mesh. cbv zeta.
  destruct (remove_degenerate _ _) as [m1|]; [|reflexivity]. cbn [bind].
  destruct (deduplicate _ _) as [m2|]; reflexivity.
Qed.

Lemma pre_mesh_built o points lines triangles pl pt ens m :
  input_ok points lines triangles pl pt ->
  pre_mesh o points lines triangles pl pt ens = Ok m ->
  built o points lines triangles pl pt ens m.
Proof.
  intros [Hp Hl Ht Hpl Hpt] H. unfold pre_mesh in H.
  set (tris := match arows triangles with [] => mkarr 3 [] | _ => triangles end) in *.
  assert (Etr : arows tris = arows triangles)
    by (unfold tris; destruct (arows triangles) eqn:E; simpl; congruence).
  assert (Etw : aw tris = 3).
  { unfold tris; destruct (arows triangles) eqn:E; [reflexivity|].
    destruct Ht as [Ht _]. destruct Ht as [Ht|[]]; [rewrite E; discriminate|congruence]. }
  set (m0 := {| m_points := points; m_lines := lines; m_triangles := tris;
                m_plines := pl; m_ptriangles := pt |}) in *.
  apply bind_ok in H. destruct H as (m1 & H1 & H).
  apply bind_ok in H. destruct H as (m2 & H2 & H).
  rename m into m3. rename H into H3.
  unfold remove_degenerate in H1. simpl in H1.
  apply bind_ok in H1. destruct H1 as (deg & Hdeg & H1).
  apply bind_ok in H1. destruct H1 as (pt1 & Hpt1 & H1). injection H1 as <-.
  apply degenerate_flags_ok in Hdeg. rewrite Etr in Hdeg.
  assert (Emask : mask (arows tris) (map negb deg) = filter (survives o points) (arows triangles)).
  { rewrite Etr, Hdeg, map_map, <- mask_filter. f_equal. apply map_ext. intros; apply negb_involutive. }
  rewrite Emask in H2.
  assert (Hro1 : rows_ok (length points) (arows lines))
    by (eapply arr_ok_rows; [|exact Hl]; simpl; lia).
  assert (Hro2 : rows_ok (length points) (filter (survives o points) (arows triangles)))
    by (apply filter_rows_ok; eapply arr_ok_rows; [|exact Ht]; simpl; lia).
  refine (_ (deduplicate_uniform _ _ _ _ _ H2)); [|exact Hro1|exact Hro2].
  intros (o2n & pts' & ls & ts & Hds & Els & Ets & Em2).
  simpl in Hds, Els, Ets.
  assert (Hfl : upto_flips m2 m3).
  { destruct ens; [eapply ensure_all_flips; eauto|injection H3 as <-; apply upto_flips_refl]. }
  destruct Hfl as (F1 & F2 & F3 & F4 & F5 & F6 & F7).
  assert (Epts : m_points m3 = pts') by (rewrite F1, Em2; reflexivity).
  assert (Pl : Forall2 (fun r r' => same_place points r pts' r') (arows lines) ls).
  { apply mapM_ok in Els. eapply Forall2_impl_all; [|exact Els]. intros; eapply same_place_take; eauto. }
  assert (Pt : Forall2 (fun r r' => same_place points r pts' r') (filter (survives o points) (arows triangles)) ts).
  { apply mapM_ok in Ets. eapply Forall2_impl_all; [|exact Ets]. intros; eapply same_place_take; eauto. }
  constructor.
  - rewrite Epts. eapply dedup_spec_canonical; eauto.
  - intros k. rewrite Epts. destruct Hds as [D1 D2 D3 D4]. split; intros Hk.
    + apply in_map_iff in Hk. destruct Hk as (q & <- & Hq). apply D4 in Hq.
      destruct Hq as (p & Hp' & ->). apply in_map_iff. eauto.
    + apply in_map_iff in Hk. destruct Hk as (p & <- & Hp'). apply In_nth_error in Hp'.
      destruct Hp' as [i Hi]. destruct (D2 i p Hi) as (i' & q & _ & Hq & E).
      apply in_map_iff. exists q. split; [apply pt_eqb_key; assumption|eapply nth_error_In; eauto].
  - rewrite Epts. apply Hds.
  - rewrite F2, Em2; reflexivity.
  - rewrite F3, Em2; simpl. assumption.
  - rewrite Epts. rewrite Em2 in F4. simpl in F4.
    eapply Forall2_trans_all; [|exact Pl|exact F4].
    intros r r' r'' Hr [->| ->]; [left; assumption|right; apply same_place_reversed_line; assumption].
  - rewrite Epts. rewrite Em2 in F5. simpl in F5.
    eapply Forall2_trans_all; [|exact Pt|exact F5].
    intros r r' r'' Hr [->| ->]; [left; assumption|right; apply same_place_reversed_triangle; assumption].
  - intros ->. injection H3 as <-. rewrite Epts, Em2. simpl. split; assumption.
  - rewrite F6, Em2; reflexivity.
  - rewrite F7, Em2; simpl. eapply mapM_dict_keys; eauto.
  - intros name v Hv. rewrite F7, Em2; simpl.
    destruct (mapM_dict_get _ _ _ _ _ Hpt1 Hv) as (v' & Hv' & Hr).
    exists v'. split; [assumption|]. eapply remap_group_survivors; eauto.
Qed.

Lemma new_mesh_built o points lines triangles pl pt ens m :
  input_ok points lines triangles pl pt ->
  new_mesh o points lines triangles pl pt ens = Ok m ->
  built o points lines triangles pl pt ens m.
Proof.
  intros Hi H. rewrite new_mesh_pre in H. apply bind_ok in H. destruct H as (m3 & H3 & H).
  apply bind_ok in H. destruct H as (u & _ & H). injection H as <-. eapply pre_mesh_built; eauto.
Qed.

Lemma same_place_length pts r pts' r' : same_place pts r pts' r' -> length r' = length r.
Proof. intros H; symmetry; eapply Forall2_length; eauto. Qed.
Lemma same_place_lt pts r pts' r' i : same_place pts r pts' r' -> In i r' -> i < length pts'.
Proof.
  intros H Hi. induction H as [|a a' l l' (p & p' & _ & Hp' & _) H IH]; [contradiction|].
  destruct Hi as [<-|Hi]; [eapply nth_error_lt; eauto|auto].
Qed.
Lemma same_line_length pts r pts' r' : same_line pts r pts' r' -> length r' = length r.
Proof. intros [H|H]; apply same_place_length in H; rewrite ?reversed_line_length in H; assumption. Qed.
Lemma same_triangle_length pts r pts' r' : same_triangle pts r pts' r' -> length r' = length r.
Proof. intros [H|H]; apply same_place_length in H; rewrite ?reversed_triangle_length in H; assumption. Qed.
Lemma same_line_lt pts r pts' r' i : same_line pts r pts' r' -> In i r' -> i < length pts'.
Proof. intros [H|H]; eapply same_place_lt; eauto. Qed.
Lemma same_triangle_lt pts r pts' r' i : same_triangle pts r pts' r' -> In i r' -> i < length pts'.
Proof. intros [H|H]; eapply same_place_lt; eauto. Qed.

Lemma pt_ok_trunc p : pt_ok p -> pt_ok (pt_trunc p).
Proof.
  intros [(Hx & Hy & Hz) Hn]. destruct p as [[x y] z]. unfold pt_ok, pt_bits, pt_nonan, pt_trunc in *.
  unfold px, py, pz in *. simpl in *.
  repeat rewrite andb_true_iff, ?negb_true_iff in *.
  split; [repeat split; apply f64_trunc_bits; assumption|].
  destruct Hn as [[Hn1 Hn2] Hn3].
  rewrite !f64_trunc_nonan by assumption. auto.
Qed.

Lemma rank_lt f rs i r : nth_error rs i = Some r -> f r = true -> rank f rs i < length (filter f rs).
Proof. intros Hi Hf. eapply nth_error_lt. eapply filter_nth; eauto. Qed.

Lemma built_ok o points lines triangles pl pt ens m :
  input_ok points lines triangles pl pt ->
  built o points lines triangles pl pt ens m -> mesh_ok m.
Proof.
  intros [Hp Hl Ht Hpl Hpt] B. destruct B. unfold mesh_ok. constructor.
  - apply Forall_forall. intros q Hq. apply b_points0 in Hq. destruct Hq as (p & Hin & ->).
    apply pt_ok_trunc. rewrite Forall_forall in Hp; auto.
  - split.
    + intros Hne. rewrite b_lw0. apply Hl. intros E. rewrite E in b_lines0. inversion b_lines0; congruence.
    + intros r' Hr'. apply In_nth_error in Hr'. destruct Hr' as [k Hk].
      destruct (Forall2_nth_r _ _ _ _ _ b_lines0 Hk) as (r & Hr & Hs). split.
      * rewrite b_lw0. rewrite (same_line_length _ _ _ _ Hs). apply Hl. eapply nth_error_In; eauto.
      * intros i Hi; eapply same_line_lt; eauto.
  - split.
    + intros _. rewrite b_tw0. left; reflexivity.
    + intros r' Hr'. apply In_nth_error in Hr'. destruct Hr' as [k Hk].
      destruct (Forall2_nth_r _ _ _ _ _ b_tris0 Hk) as (r & Hr & Hs). split.
      * rewrite b_tw0. rewrite (same_triangle_length _ _ _ _ Hs).
        apply nth_error_In, filter_In in Hr. destruct Hr as [Hr _].
        destruct (proj2 Ht r Hr) as [Hlen _]. rewrite Hlen.
        destruct (proj1 Ht) as [E|[]]; [intros E; rewrite E in Hr; contradiction|congruence].
      * intros i Hi; eapply same_triangle_lt; eauto.
  - rewrite b_pl0. rewrite <- (Forall2_length _ _ _ b_lines0). assumption.
  - split; [rewrite b_ptkeys0; apply Hpt|].
    intros name v' i Hin Hi.
    assert (Hk : In name (dkeys pt)).
    { rewrite <- b_ptkeys0. unfold dkeys. apply in_map_iff. exists (name, v'); auto. }
    unfold dkeys in Hk. apply in_map_iff in Hk. destruct Hk as ((name' & v) & En & Hv).
    simpl in En; subst name'. apply In_dget in Hv; [|apply Hpt].
    destruct (b_pt0 _ _ Hv) as (v1 & Hv1 & Ev1).
    apply In_dget in Hin; [|rewrite b_ptkeys0; apply Hpt].
    replace v' with v1 in Hi by congruence. rewrite Ev1 in Hi.
    apply in_map_iff in Hi. destruct Hi as (j & <- & Hj). unfold survivors in Hj.
    apply filter_In in Hj. destruct Hj as [Hj Hs].
    destruct (nth_error (arows triangles) j) as [r|] eqn:Er; [|discriminate].
    rewrite <- (Forall2_length _ _ _ b_tris0). eapply rank_lt; eauto.
Qed.

Lemma mesh_ok_check m : mesh_ok m -> check_mesh m = true.
Proof.
  intros [Hp Hl Ht Hpl Hpt]. unfold check_mesh. rewrite !andb_true_iff, !orb_true_iff, !Nat.eqb_eq.
  assert (Hlt : forall n l, (forall i, In i l -> i < n) -> all_lt n l = true).
  { intros n l H. unfold all_lt. apply forallb_forall. intros i Hi. apply Nat.ltb_lt; auto. }
  repeat split.
  - apply forallb_forall. intros r Hr. apply Hlt. apply Hl; assumption.
  - apply forallb_forall. intros r Hr. apply Hlt. apply Ht; assumption.
  - apply forallb_forall. intros [k v] Hr. apply Hlt. intros; eapply Hpl; eauto.
  - apply forallb_forall. intros [k v] Hr. apply Hlt. intros; eapply Hpt; eauto.
  - destruct (arows (m_lines m)) eqn:E; [left; left; reflexivity|].
    destruct (proj1 Hl) as [H|[H|[]]]; [rewrite E; discriminate|auto|auto].
  - destruct (arows (m_triangles m)) eqn:E; [left; left; reflexivity|].
    destruct (proj1 Ht) as [H|[]]; [rewrite E; discriminate|auto].
Qed.

Lemma pre_mesh_total o points lines triangles pl pt ens :
  input_ok points lines triangles pl pt ->
  exists m, pre_mesh o points lines triangles pl pt ens = Ok m.
Proof.
  intros Hin. pose proof Hin as [Hp Hl Ht Hpl Hpt]. unfold pre_mesh.
  set (tris := match arows triangles with [] => mkarr 3 [] | _ => triangles end) in *.
  assert (Etr : arows tris = arows triangles)
    by (unfold tris; destruct (arows triangles) eqn:E; simpl; congruence).
  assert (Ht3 : forall r, In r (arows triangles) -> length r = 3 /\ forall i, In i r -> i < length points).
  { intros r Hr. destruct (proj2 Ht r Hr) as [H1 H2]. split; [|assumption]. rewrite H1.
    destruct (proj1 Ht) as [E|[]]; [intros E; rewrite E in Hr; contradiction|congruence]. }
  unfold remove_degenerate at 1. cbn [m_points m_triangles m_ptriangles m_lines m_plines].
  rewrite Etr.
  destruct (degenerate_flags_total o points (arows triangles) Ht3) as [deg Ed]. rewrite Ed. cbn [bind].
  pose proof (degenerate_flags_ok _ _ _ _ Ed) as Edeg.
  destruct (mapM_dict_total (remap_group deg) pt) as [pt1 Ept].
  { intros k v Hkv. apply remap_group_total. intros i Hi. rewrite Edeg, map_length.
    eapply Hpt; eauto. }
  rewrite Ept. cbn [bind].
  destruct (deduplicate_total o
    {| m_points := points; m_lines := lines;
       m_triangles := {| aw := aw tris; arows := mask (arows triangles) (map negb deg) |};
       m_plines := pl; m_ptriangles := pt1 |}) as [m2 E2]; cbn [m_points m_lines m_triangles arows].
  { intros r i Hr. apply Hl; assumption. }
  { intros r i Hr. apply Ht3. eapply mask_In; eauto. }
  rewrite E2. cbn [bind]. destruct ens; [|eauto].
  assert (Epre : pre_mesh o points lines triangles pl pt false = Ok m2).
  { unfold pre_mesh. fold tris. unfold remove_degenerate. cbn [m_points m_triangles m_ptriangles m_lines m_plines].
    rewrite Etr, Ed. cbn [bind]. rewrite Ept. cbn [bind]. rewrite E2. reflexivity. }
  pose proof (built_ok _ _ _ _ _ _ _ _ Hin (pre_mesh_built _ _ _ _ _ _ _ _ Hin Epre)) as [Kp Kl Kt Kpl Kpt].
  apply ensure_all_total. split; [|split; [|split]].
  - destruct (arows (m_lines m2)) eqn:E; [exists 2; split; [auto|constructor]|]. rewrite <- E in *.
    exists (aw (m_lines m2)). split.
    + destruct (proj1 Kl) as [H|[H|[]]]; [rewrite E; discriminate|auto|auto].
    + apply Forall_forall. intros r1 Hr. apply Kl; assumption.
  - apply Forall_forall. intros r1 Hr. destruct (proj2 Kt r1 Hr) as [H1 _]. rewrite H1.
    destruct (proj1 Kt) as [H|[]]; [|auto]. intros E; rewrite E in Hr; contradiction.
  - apply Kpl.
  - apply Kpt.
Qed.

Lemma new_mesh_total o points lines triangles pl pt ens :
  input_ok points lines triangles pl pt ->
  exists m, new_mesh o points lines triangles pl pt ens = Ok m /\ mesh_ok m /\ built o points lines triangles pl pt ens m.
Proof.
  intros Hin. destruct (pre_mesh_total o points lines triangles pl pt ens Hin) as [m Em].
  pose proof (pre_mesh_built _ _ _ _ _ _ _ _ Hin Em) as B.
  pose proof (built_ok _ _ _ _ _ _ _ _ Hin B) as K.
  exists m. rewrite new_mesh_pre, Em. cbn [bind]. rewrite (mesh_ok_check _ K). cbn [py_assert bind]. auto.
Qed.
