(** Boundary normals before and after the conversion of the mesh for the solver (C48), and the converted
    mesh (C16). *)
From Coq Require Import Reals Permutation Relations Lra.
From Verif Require Import Base BaseFacts Float64 OrientModel MeshModel MeshSpec OrientFacts LabelFacts DedupFacts MeshFacts MeshCtor
  MeshOps MeshExtract MeshMisc OrientConsist Vec GeomModel OutwardSpec OutwardFacts MeshOutward OutwardMeshFacts ExcitationModel.

Lemma inward_all_seq o names : forall e e', inward_all o e names = (e', Ok tt) ->
  ensure_seq o false (e_mesh e) names = Ok (e_mesh e') /\ e_symmetry e' = e_symmetry e.
Proof.
  induction names as [|n names IH]; intros e e' H; cbn [inward_all] in H; [injection H as <-; auto|].
  destruct (ensure_normals o false (e_mesh e) n) as [m1|x] eqn:E; [|discriminate]. apply IH in H. cbn [set_mesh e_mesh e_symmetry] in H.
  cbn [ensure_seq]. rewrite E. exact H.
Qed.
Lemma each_mesh {A} (f : excitation -> string -> A -> excitation * result unit) :
  (forall e n a, e_mesh (fst (f e n a)) = e_mesh e) -> forall kw e, e_mesh (fst (each f e kw)) = e_mesh e.
Proof.
  intros Hf kw. induction kw as [|[n a] kw IH]; intros e; cbn [each]; [reflexivity|].
  specialize (Hf e n a). destruct (f e n a) as [e1 [u|x]]; cbn [fst] in *; [rewrite IH|]; exact Hf.
Qed.
Lemma add_if_electrode_mesh C e n v : e_mesh (fst (add_if_electrode C e n v)) = e_mesh e.
Proof. unfold add_if_electrode. destruct (is_electrode e n); reflexivity. Qed.

Definition is_boundary_call (c : call) (names : list string) : Prop :=
  c = AddElectrostaticBoundary true names \/ c = AddMagnetostaticBoundary true names.

Lemma boundary_call_mesh o e c names e' : is_boundary_call c names -> run_call o e c = (e', Ok tt) ->
  ensure_seq o false (e_mesh e) names = Ok (e_mesh e').
Proof.
  intros Hc H.
  assert (X : forall add, (forall e kw, e_mesh (fst (add e kw)) = e_mesh e) -> add_boundary o add true e names = (e', Ok tt) ->
    ensure_seq o false (e_mesh e) names = Ok (e_mesh e')).
  { intros add Ha Hb. unfold add_boundary in Hb. destruct (inward_all o e names) as [e1 [u|x]] eqn:E; [|discriminate].
    destruct u. apply inward_all_seq in E. destruct E as [E _]. rewrite E. f_equal. specialize (Ha e1 (zero_dict names)). rewrite Hb in Ha. symmetry. exact Ha. }
  destruct Hc as [-> | ->]; cbn [run_call] in H; (eapply X; [|exact H]); intros e0 kw; apply each_mesh; intros; apply add_if_electrode_mesh.
Qed.

Lemma boundary_lines_inward o e c names e' name idx pos : is_boundary_call c names -> run_call o e c = (e', Ok tt) ->
  mesh_ok (e_mesh e') -> In name names ->
  dget (m_plines (e_mesh e)) name = Some idx -> NoDup idx -> apart (m_plines (e_mesh e)) name idx ->
  (forall l, o_line_outwards o (m_points (e_mesh e)) l = line_outwards pos l) ->
  exists els, np_take (arows (m_lines (e_mesh e'))) idx = Ok els /\ outlines_oriented false pos els.
Proof.
  intros Hc H M Hin Hg ND Ha Ho. pose proof (boundary_call_mesh _ _ _ _ _ Hc H) as S.
  destruct (ensure_seq_lines o false names _ _ name idx S Hin Hg ND Ha) as (els & pieces & Ht & Hor).
  exists els. split; [exact Ht|]. eapply oriented_outlines; [exact Ho|eapply mesh_lines_width; eauto|exact Hor].
Qed.
Lemma boundary_triangles_inward o e c names e' name idx pos : is_boundary_call c names -> run_call o e c = (e', Ok tt) -> In name names ->
  dget (m_ptriangles (e_mesh e)) name = Some idx -> NoDup idx -> apart (m_ptriangles (e_mesh e)) name idx ->
  (forall l, o_tri_outwards o (m_points (e_mesh e)) l = triangle_outwards pos l) ->
  exists els, np_take (arows (m_triangles (e_mesh e'))) idx = Ok els /\ hulls_oriented false o (m_points (e_mesh e)) pos els.
Proof.
  intros Hc H Hin Hg ND Ha Ho. pose proof (boundary_call_mesh _ _ _ _ _ Hc H) as S.
  destruct (ensure_seq_triangles o false names _ _ name idx S Hin Hg ND Ha) as (els & pieces & Ht & Hor).
  exists els. split; [exact Ht|]. eapply oriented_hulls; [exact Ho|exact Hor].
Qed.

Lemma flips_mesh_ok m m' : upto_flips m m' -> mesh_ok m -> mesh_ok m'.
Proof.
  intros (A1 & A2 & A3 & A4 & A5 & A6 & A7) [P L T Pl Pt].
  assert (X : forall (sf : row -> row -> Prop) ws (a a' : arr2), (forall r r', sf r r' -> length r' = length r) -> (forall r r' i, sf r r' -> (In i r' <-> In i r)) ->
    aw a' = aw a -> Forall2 sf (arows a) (arows a') -> arr_ok ws (length (m_points m)) a -> arr_ok ws (length (m_points m)) a').
  { intros sf ws a a' S1 S2 W F [K1 K2]. split.
    - intros N. rewrite W. apply K1. intros Q. rewrite Q in F. inversion F. congruence.
    - intros r' Hr'. destruct (In_nth_error _ _ Hr') as [i Hi]. destruct (Forall2_nth_r _ _ _ _ _ F Hi) as (r & Hr & S).
      destruct (K2 r) as [Q1 Q2]; [eapply nth_error_In; exact Hr|]. rewrite W. split; [rewrite (S1 _ _ S); exact Q1|].
      intros k Hk. apply Q2. apply (S2 _ _ _ S). exact Hk. }
  constructor; rewrite ?A1, ?A6, ?A7.
  - exact P.
  - apply (X line_sf _ (m_lines m)); auto; [apply line_sf_length|apply line_sf_In].
  - apply (X tri_sf _ (m_triangles m)); auto; [apply tri_sf_length|apply tri_sf_In].
  - rewrite <- (Forall2_length _ _ _ A4). exact Pl.
  - rewrite <- (Forall2_length _ _ _ A5). exact Pt.
Qed.
Lemma boundary_call_mesh_ok o e c names e' : is_boundary_call c names -> run_call o e c = (e', Ok tt) -> mesh_ok (e_mesh e) -> mesh_ok (e_mesh e').
Proof. intros Hc H. pose proof (boundary_call_mesh _ _ _ _ _ Hc H) as S. apply flips_mesh_ok. eapply ensure_seq_flips; exact S. Qed.

(** ** The mesh that is solved *)
Lemma lines_to_higher_order_ok third pts rows pts' rows' : lines_to_higher_order third pts rows = Ok (pts', rows') ->
  exists p2 p3, pts' = pts ++ p2 ++ p3 /\ length p2 = length rows /\ length p3 = length rows /\ length rows' = length rows /\
    forall i r, nth_error rows i = Some r -> exists a b p q, r = [a; b] /\ nth_error pts a = Some p /\ nth_error pts b = Some q /\
      nth_error rows' i = Some [a; b; length pts + i; length pts + length rows + i] /\
      nth_error p2 i = Some (fst (third p q)) /\ nth_error p3 i = Some (snd (third p q)).
Proof.
  unfold lines_to_higher_order. intros H. apply bind_ok in H. destruct H as (ends & He & H). injection H as <- <-.
  apply mapM_ok in He. pose proof (Forall2_length _ _ _ He) as L.
  exists (map fst ends), (map snd ends). rewrite !map_length. repeat split; auto.
  { rewrite map2_length, arange_length. apply Nat.min_id. }
  intros i r Hi. destruct (Forall2_nth_l _ _ _ _ _ He Hi) as (pq & Hpq & E).
  destruct r as [|a [|b [|c r]]]; try discriminate. apply bind_ok in E. destruct E as (p & Hp & E). apply bind_ok in E. destruct E as (q & Hq & E). injection E as <-.
  apply np_get_ok in Hp, Hq. exists a, b, p, q. repeat split; auto.
  - rewrite (map2_nth _ _ _ _ _ i Hi (arange_nth _ _ (nth_error_lt _ _ _ Hi))). simpl. reflexivity.
  - rewrite nth_error_map, Hpq. reflexivity.
  - rewrite nth_error_map, Hpq. reflexivity.
Qed.

Lemma to_higher_order_input o third m m' : (forall p q, pt_ok p -> pt_ok q -> pt_ok (fst (third p q)) /\ pt_ok (snd (third p q))) ->
  mesh_ok m -> to_higher_order_mesh o third m = Ok m' ->
  exists pts lines, input_ok pts lines (m_triangles m) (m_plines m) (m_ptriangles m) /\
    length (arows lines) = length (arows (m_lines m)) /\ aw lines = 4 /\
    new_mesh o pts lines (m_triangles m) (m_plines m) (m_ptriangles m) true = Ok m'.
Proof.
  intros Ht [P L T Pl Pt] H. unfold to_higher_order_mesh in H. apply bind_ok in H. destruct H as ((pts & lines) & H1 & H).
  apply bind_ok in H. destruct H as (u & Hw & H). exists pts, lines.
  assert (W4 : aw lines = 4). { destruct (aw lines =? 4) eqn:E; [apply Nat.eqb_eq; exact E|discriminate]. }
  assert (Mono : forall a, arr_ok [3] (length (m_points m)) a -> (length (m_points m) <= length pts) -> arr_ok [3] (length pts) a).
  { intros a [K1 K2] Hl. split; [exact K1|]. intros r Hr. destruct (K2 r Hr) as [Q1 Q2]. split; [exact Q1|]. intros i Hi. apply Q2 in Hi. lia. }
  destruct (arows (m_lines m)) as [|r0 rs0] eqn:Er.
  - injection H1 as <- <-. split; [|auto]. constructor; auto.
    split; [simpl; auto|intros r []].
  - rewrite <- Er in *. destruct (aw (m_lines m) =? 2) eqn:Ew.
    + apply bind_ok in H1. destruct H1 as ((p & r) & H1 & H2). injection H2 as <- <-. cbn [arows aw].
      destruct (lines_to_higher_order_ok _ _ _ _ _ H1) as (p2 & p3 & -> & L2 & L3 & Lr & K).
      split; [|auto]. constructor; cbn [arows].
      * assert (Q : forall i x, nth_error p2 i = Some x \/ nth_error p3 i = Some x -> pt_ok x).
        { intros i x Hx. assert (Li : i < length (arows (m_lines m))).
          { destruct Hx as [Hx|Hx]; apply nth_error_lt in Hx; lia. }
          destruct (nth_error (arows (m_lines m)) i) as [ri|] eqn:Ei; [|apply nth_error_None in Ei; lia].
          destruct (K i ri Ei) as (a & b & q1 & q2 & _ & A1 & A2 & _ & A3 & A4). rewrite Forall_forall in P.
          destruct (Ht q1 q2) as [T1 T2]; [apply P; eapply nth_error_In; exact A1|apply P; eapply nth_error_In; exact A2|].
          destruct Hx as [Hx|Hx]; congruence. }
        apply Forall_app. split; [exact P|]. apply Forall_app. split; apply Forall_forall; intros x Hx; destruct (In_nth_error _ _ Hx) as [i Hi]; eauto.
      * split; [simpl; auto|]. cbn [arows aw]. intros r' Hr'. destruct (In_nth_error _ _ Hr') as [i Hi].
        assert (Li : i < length (arows (m_lines m))) by (apply nth_error_lt in Hi; lia).
        destruct (nth_error (arows (m_lines m)) i) as [ri|] eqn:Ei; [|apply nth_error_None in Ei; lia].
        destruct (K i ri Ei) as (a & b & q1 & q2 & _ & A1 & A2 & A3 & _). rewrite Hi in A3. injection A3 as ->. split; [reflexivity|].
        apply nth_error_lt in A1, A2. rewrite !app_length. simpl. intros k [<-|[<-|[<-|[<-|[]]]]]; lia.
      * apply Mono; [exact T|]. rewrite app_length. lia.
      * rewrite Lr. exact Pl.
      * exact Pt.
    + injection H1 as <- <-. split; [|auto]. constructor; auto.
Qed.

Lemma solved_lines_outward o third e e' name idx pos :
  (forall p q, pt_ok p -> pt_ok q -> pt_ok (fst (third p q)) /\ pt_ok (snd (third p q))) ->
  mesh_ok (e_mesh e) -> is_2d (e_mesh e) = true -> is_higher_order (e_mesh e) = false ->
  solved_excitation o third e = Ok e' ->
  dget (m_plines (e_mesh e)) name = Some idx -> NoDup idx -> apart (m_plines (e_mesh e)) name idx ->
  (forall l, o_line_outwards o (m_points (e_mesh e')) l = line_outwards pos l) ->
  exists els, np_take (arows (m_lines (e_mesh e'))) idx = Ok els /\ outlines_oriented true pos els.
Proof.
  intros Ht M D2 Ho H Hg ND Ha Hor. unfold solved_excitation in H. rewrite D2, Ho in H. cbn [andb negb] in H.
  apply bind_ok in H. destruct H as (m' & Hm & H). injection H as <-. cbn [set_mesh e_mesh] in *.
  destruct (to_higher_order_input _ _ _ _ Ht M Hm) as (pts & lines & Hin & _ & _ & Hn).
  assert (Hpl : m_plines m' = m_plines (e_mesh e)).
  { destruct (new_mesh_total o pts lines _ _ _ true Hin) as (m2 & E2 & _ & B). rewrite Hn in E2. injection E2 as <-. exact (b_pl _ _ _ _ _ _ _ _ B). }
  rewrite <- Hpl in Hg, Ha. exact (built_lines_outward _ _ _ _ _ _ _ _ _ _ Hin Hn Hg ND Ha Hor).
Qed.
