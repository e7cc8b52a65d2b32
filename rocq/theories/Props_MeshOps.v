(** Property theorems about transforming, filtering and collecting meshes: C71-C74. *)
From Coq Require Import Relations Sorted.
From Verif Require Import Base Float64 OrientModel MeshModel MeshSpec BaseFacts Float64Facts DedupFacts MeshFacts MeshCtor MeshOps MeshExtract MeshMisc MeshExamples MeshPropFacts CollMeshModel CollMeshSpec CollMeshFacts.

(** ** C71 Transforming a mesh *)
(** [r'] in [pts'] has, vertex by vertex, the coordinates that [f] gives the vertices of [r] in [pts]
    (low 16 mantissa bits cleared). *)
Definition moved (f : point -> point) (pts : list point) (r : row) (pts' : list point) (r' : row) : Prop :=
  Forall2 (fun i i' => exists p p', nth_error pts i = Some p /\ nth_error pts' i' = Some p' /\ pt_eqb p' (pt_trunc (f p)) = true) r r'.
Lemma moved_same_place f pts r pts' r' : same_place (map f pts) r pts' r' -> moved f pts r pts' r'.
Proof.
  unfold same_place, moved. induction 1 as [|i j r s (p & q & A & B & C) H IH]; constructor; [|exact IH].
  rewrite nth_error_map in A. destruct (nth_error pts i) as [p0|]; [|discriminate]. injection A as <-. exists p0, q. repeat split; assumption.
Qed.
(** The triangle has an area of at least 1e-12 after the transformation. *)
Definition moved_survives (o : oracles) (f : point -> point) (pts : list point) (r : row) : bool :=
  match map (nth_error pts) (firstn 3 r) with
  | [Some a; Some b; Some c] => negb (o_degenerate o (f a) (f b) (f c))
  | _ => true
  end.
Lemma moved_survives_eq o f pts r : survives o (map f pts) r = moved_survives o f pts r.
Proof.
  unfold survives, moved_survives. replace (map (nth_error (map f pts)) (firstn 3 r)) with (map (option_map f) (map (nth_error pts) (firstn 3 r))).
  - destruct (map (nth_error pts) (firstn 3 r)) as [|[a|] [|[b|] [|[c|] [|]]]]; reflexivity.
  - rewrite map_map. apply map_ext. intros i. rewrite nth_error_map. reflexivity.
Qed.
Theorem C71_transform o f m : mesh_ok m -> (forall p, In p (m_points m) -> pt_ok (f p)) ->
  exists m', map_points o f m = Ok m' /\ mesh_ok m' /\
    (* every line is the transformed line, possibly traversed the other way *)
    Forall2 (fun r r' => moved f (m_points m) r (m_points m') r' \/ moved f (m_points m) (reversed_line r) (m_points m') r') (arows (m_lines m)) (arows (m_lines m')) /\
    (* the same for the triangles that do not become too small *)
    Forall2 (fun r r' => moved f (m_points m) r (m_points m') r' \/ moved f (m_points m) (reversed_triangle r) (m_points m') r')
      (filter (moved_survives o f (m_points m)) (arows (m_triangles m))) (arows (m_triangles m')) /\
    (* groups *)
    m_plines m' = m_plines m /\ dkeys (m_ptriangles m') = dkeys (m_ptriangles m) /\
    (forall name v, dget (m_ptriangles m) name = Some v -> dget (m_ptriangles m') name =
       Some (map (rank (moved_survives o f (m_points m)) (arows (m_triangles m)))
                 (filter (fun i => match nth_error (arows (m_triangles m)) i with Some r => moved_survives o f (m_points m) r | None => false end) v))) /\
    (* points *)
    (forall q, In q (m_points m') -> exists p, In p (m_points m) /\ q = pt_trunc (f p)) /\
    (forall p, In p (m_points m) -> exists q, In q (m_points m') /\ pt_eqb q (pt_trunc (f p)) = true).
Proof.
  intros K Hf. destruct K as [Kp Kl Kt Kpl Kpt].
  assert (Hin : input_ok (map f (m_points m)) (m_lines m) (m_triangles m) (m_plines m) (m_ptriangles m)).
  { constructor; try assumption; [|rewrite map_length; assumption|rewrite map_length; assumption].
    apply Forall_forall. intros q Hq. apply in_map_iff in Hq. destruct Hq as (p & <- & Hp). exact (Hf p Hp). }
  destruct (new_mesh_total o _ _ _ _ _ true Hin) as (m' & E & K' & B). exists m'. destruct B.
  assert (Eq : filter (survives o (map f (m_points m))) (arows (m_triangles m)) = filter (moved_survives o f (m_points m)) (arows (m_triangles m))).
  { apply filter_ext. intros r. apply moved_survives_eq. }
  split; [exact E|]. split; [exact K'|]. split; [|split; [|split; [|split; [|split; [|split]]]]].
  - eapply Forall2_impl_all; [|exact b_lines]. intros r r' [H|H]; [left|right]; apply moved_same_place; exact H.
  - rewrite <- Eq. eapply Forall2_impl_all; [|exact b_tris]. intros r r' [H|H]; [left|right]; apply moved_same_place; exact H.
  - exact b_pl.
  - exact b_ptkeys.
  - intros name v Hv. destruct (b_pt name v Hv) as (v' & Hv' & Ev). rewrite Hv', Ev. f_equal. unfold survivors.
    replace (filter (fun i => match nth_error (arows (m_triangles m)) i with Some r => survives o (map f (m_points m)) r | None => false end) v)
      with (filter (fun i => match nth_error (arows (m_triangles m)) i with Some r => moved_survives o f (m_points m) r | None => false end) v).
    + apply map_ext. intros i. apply rank_ext. intros r _. apply moved_survives_eq.
    + apply filter_ext. intros i. destruct (nth_error (arows (m_triangles m)) i); [rewrite moved_survives_eq|]; reflexivity.
  - intros q Hq. destruct (b_points q Hq) as (p & Hp & ->). apply in_map_iff in Hp. destruct Hp as (p0 & <- & Hp0). exists p0. split; [exact Hp0|reflexivity].
  - intros p Hp. assert (Hk : In (pt_key (pt_trunc (f p))) (map pt_key (m_points m'))).
    { apply b_keys. apply in_map_iff. exists (f p). split; [reflexivity|apply in_map; exact Hp]. }
    apply in_map_iff in Hk. destruct Hk as (q & Hq & Hi). exists q. split; [exact Hi|]. apply pt_eqb_key. exact Hq.
Qed.
Print Assumptions C71_transform.
(** mirror_yz on the example mesh: x becomes -x by flipping the sign bit. *)
Definition f64_opp (b : f64) : f64 := Z.lxor b 0x8000000000000000%Z.
Definition mirror_x (p : point) : point := (f64_opp (px p), py p, pz p).
Example C71_nonvacuous : mesh_ok ex_mesh /\ (forall p, In p (m_points ex_mesh) -> pt_ok (mirror_x p)) /\
  exists m', map_points ex_o mirror_x ex_mesh = Ok m' /\ In (fm1, f0, f0) (m_points m') /\ length (arows (m_triangles m')) = 2.
Proof.
  split; [apply input_okb_ok; vm_compute; reflexivity|]. split.
  - rewrite ex_mesh_value. cbn [m_points]. intros p Hp. apply pt_okb_ok.
    assert (H : forallb (fun p => pt_okb (mirror_x p)) [(f0, f0, f0); (f1, f0, f0); (f0, f1, f0); (f1, f1, f0); (fm1, f0, f2)] = true) by (vm_compute; reflexivity).
    rewrite forallb_forall in H. exact (H p Hp).
  - eexists. vm_compute. repeat split. tauto.
Qed.

(** ** C72 Meshing a collection *)
(** The name an element ends up with: the name argument of mesh, else the name of the collection, else the name of
    the member. *)
Definition called (argument collection own : option string) : option string :=
  match argument with Some n => Some n | None => match collection with Some n => Some n | None => own end end.
Lemma called_eq a c w : name_or (name_or a c) w = called a c w.
Proof. destruct a, c; reflexivity. Qed.
Lemma keys_in q ps : In (pt_key q) (map pt_key ps) -> exists q', In q' ps /\ pt_eqb q' q = true.
Proof. intros H. apply in_map_iff in H. destruct H as (q' & E & Hq). exists q'. split; [exact Hq|apply pt_eqb_key; exact E]. Qed.
Theorem C72_paths o w xs cname name ens :
  (forall x, In x xs -> aw (mb_elements x) = w /\ input_ok (mb_points x) (mb_elements x) no_triangles [] []) ->
  exists m parts, collection_mesh o Paths xs cname name ens = Ok m /\ mesh_ok m /\
    (* the lines are those of the members, one member after the other *)
    arows (m_lines m) = concat parts /\
    Forall2 (fun x part => Forall2 (fun r r' => same_line (mb_points x) r (m_points m) r') (arows (mb_elements x)) part) xs parts /\
    arows (m_triangles m) = [] /\
    (* the points are those of the members *)
    (forall q, In q (m_points m) -> exists x p, In x xs /\ In p (mb_points x) /\ q = pt_trunc p) /\
    (forall x p, In x xs -> In p (mb_points x) -> exists q, In q (m_points m) /\ pt_eqb q (pt_trunc p) = true) /\
    (* names *)
    (forall nm, dget (m_plines m) nm = members_named nm 0 (map (fun x => (called name cname (mb_name x), length (arows (mb_elements x)))) xs)) /\
    (forall nm, dget (m_ptriangles m) nm = None).
Proof.
  intros H. destruct (lines_sum o w (name_or name cname) ens xs [] empty_mesh) as (m & E & L); [constructor|apply Forall_forall; exact H|apply lines_nil|].
  cbn [app] in L. destruct L as [Lok Lc Lt Lpt Lp La (parts & Lr & Lf & Lg)]. exists m, parts.
  split; [unfold collection_mesh; rewrite empty_built; exact E|]. repeat (split; [assumption|]). split; [|split; [|assumption]].
  - intros x p Hx Hp. exact (keys_in _ _ (La x p Hx Hp)).
  - intros nm. rewrite Lg. f_equal. apply map_ext. intros x. rewrite called_eq. reflexivity.
Qed.
Print Assumptions C72_paths.

Theorem C72_surfaces o xs cname name ens : area_of_coordinates o ->
  (forall x, In x xs -> input_ok (mb_points x) no_lines (mb_elements x) [] []) ->
  exists m parts, collection_mesh o Surfaces xs cname name ens = Ok m /\ mesh_ok m /\
    arows (m_triangles m) = concat parts /\
    Forall2 (fun x part => Forall2 (fun r r' => same_triangle (mb_points x) r (m_points m) r') (kept_triangles o x) part) xs parts /\
    arows (m_lines m) = [] /\
    (forall q, In q (m_points m) -> exists x p, In x xs /\ In p (mb_points x) /\ q = pt_trunc p) /\
    (forall x p, In x xs -> In p (mb_points x) -> exists q, In q (m_points m) /\ pt_eqb q (pt_trunc p) = true) /\
    (forall nm, dget (m_ptriangles m) nm = members_named nm 0 (map (fun x => (called name cname (mb_name x), length (kept_triangles o x))) xs)) /\
    (forall nm, dget (m_plines m) nm = None).
Proof.
  intros A H. destruct (triangles_sum o (name_or name cname) ens A xs [] empty_mesh) as (m & E & L); [constructor|apply Forall_forall; exact H|apply triangles_nil|].
  cbn [app] in L. destruct L as [Lok Lc Lt Lpt Lp La (parts & Lr & Lf & Lg)]. exists m, parts.
  split; [unfold collection_mesh; rewrite empty_built; exact E|]. repeat (split; [assumption|]). split; [|split; [|assumption]].
  - intros x p Hx Hp. exact (keys_in _ _ (La x p Hx Hp)).
  - intros nm. rewrite Lg. f_equal. apply map_ext. intros x. rewrite called_eq. reflexivity.
Qed.
Print Assumptions C72_surfaces.

(** Naming a collection puts all its elements under that name. *)
Lemma members_named_all nm l : forall s, (forall n k, In (n, k) l -> n = Some nm) -> l <> [] -> members_named nm s l = Some (seq s (total l)).
Proof.
  induction l as [|[n k] l IH]; intros s H Hne; [congruence|]. cbn [members_named total]. rewrite (H n k (or_introl eq_refl)). cbn [named]. rewrite String.eqb_refl.
  destruct l as [|y l]; [cbn; rewrite Nat.add_0_r; reflexivity|]. rewrite IH; [|intros a b Hab; exact (H a b (or_intror Hab))|discriminate]. cbn [both]. rewrite seq_app. reflexivity.
Qed.
Theorem C72_naming o w xs n ens : xs <> [] ->
  (forall x, In x xs -> aw (mb_elements x) = w /\ input_ok (mb_points x) (mb_elements x) no_triangles [] []) ->
  exists m, collection_mesh o Paths (set_collection_name xs (Some n)) (Some n) None ens = Ok m /\
    dget (m_plines m) n = Some (arange (length (arows (m_lines m)))) /\
    (forall nm, nm <> n -> dget (m_plines m) nm = None) /\
    (* also every member on its own now has that name *)
    (forall x, In x (set_collection_name xs (Some n)) -> exists mx, member_mesh o Paths x None ens = Ok mx /\ dget (m_plines mx) n = Some (arange (length (arows (m_lines mx))))).
Proof.
  intros Hne H. set (ys := set_collection_name xs (Some n)).
  assert (Hy : forall x, In x ys -> mb_name x = Some n /\ aw (mb_elements x) = w /\ input_ok (mb_points x) (mb_elements x) no_triangles [] []).
  { intros x Hx. unfold ys, set_collection_name in Hx. apply in_map_iff in Hx. destruct Hx as (x0 & <- & Hx0). split; [reflexivity|]. exact (H x0 Hx0). }
  destruct (C72_paths o w ys (Some n) None ens (fun x Hx => proj2 (Hy x Hx))) as (m & parts & E & _ & Er & Ef & _ & _ & _ & Eg & _).
  exists m. split; [exact E|].
  assert (Len : length (arows (m_lines m)) = total (map (fun x => (called None (Some n) (mb_name x), length (arows (mb_elements x)))) ys)).
  { rewrite Er. clear - Ef. induction Ef as [|x part zs parts F G IH]; [reflexivity|]. cbn [concat map total]. rewrite app_length, IH, <- (Forall2_length _ _ _ F). reflexivity. }
  split; [|split].
  - rewrite Eg, members_named_all; [rewrite Len; reflexivity| |].
    + intros a b Hab. apply in_map_iff in Hab. destruct Hab as (x & Ex & _). injection Ex as <- _. reflexivity.
    + unfold ys, set_collection_name. destruct xs; [congruence|discriminate].
  - intros nm Hnm. rewrite Eg. generalize 0. clear - Hnm. induction ys as [|x ys IH]; intros s; [reflexivity|]. cbn [map members_named called named]. destruct (String.eqb_spec n nm); [congruence|]. cbn [both]. apply IH.
  - intros x Hx. destruct (Hy x Hx) as (Nx & Hw & Hin). unfold member_mesh. rewrite Nx. cbn [name_or one_group].
    assert (Hin' : input_ok (mb_points x) (mb_elements x) no_triangles [(n, arange (length (arows (mb_elements x))))] []) by (destruct Hin; constructor; try assumption; apply groups_one).
    destruct (new_mesh_total o _ _ _ _ _ ens Hin') as (mx & Emx & _ & B). exists mx. split; [exact Emx|]. destruct B. rewrite b_pl. cbn [dget]. rewrite String.eqb_refl, (Forall2_length _ _ _ b_lines). reflexivity.
Qed.
Print Assumptions C72_naming.

Definition ex_member (a b : f64) (nm : option string) : member := mkmember [(a, f0, f0); (b, f0, f0)] (mkarr 2 [[0; 1]]) nm.
Definition ex_triangle (a b : f64) (nm : option string) : member := mkmember [(a, f0, f0); (b, f0, f0); (a, f0, f2)] (mkarr 3 [[0; 1; 2]]) nm.
Example C72_nonvacuous :
  (forall x, In x [ex_member f0 f1 (Some "a"); ex_member f1 f2 None; ex_member f2 fm1 (Some "a")]%string -> aw (mb_elements x) = 2 /\ input_ok (mb_points x) (mb_elements x) no_triangles [] []) /\
  (exists m, collection_mesh ex_o Paths [ex_member f0 f1 (Some "a"); ex_member f1 f2 None; ex_member f2 fm1 (Some "a")]%string None None true = Ok m /\
     dget (m_plines m) "a" = Some [0; 2] /\ length (m_points m) = 4) /\
  area_of_coordinates ex_o /\
  (forall x, In x [ex_triangle f0 f1 None; ex_triangle f1 f2 None] -> input_ok (mb_points x) no_lines (mb_elements x) [] []) /\
  (exists m, collection_mesh ex_o Surfaces [ex_triangle f0 f1 None; ex_triangle f1 f2 None] (Some "s"%string) None true = Ok m /\ dget (m_ptriangles m) "s" = Some [0; 1]).
Proof.
  split; [intros x [<-|[<-|[<-|[]]]]; (split; [reflexivity|apply input_okb_ok; vm_compute; reflexivity])|].
  split; [eexists; vm_compute; repeat split|]. split; [|split; [intros x [<-|[<-|[]]]; apply input_okb_ok; vm_compute; reflexivity|eexists; vm_compute; repeat split]].
  split.
  - intros a b c. cbn. rewrite (pt_eqb_sym c b), !(orb_comm (pt_eqb a c)). destruct (pt_eqb a b), (pt_eqb b c), (pt_eqb a c); reflexivity.
  - assert (Eq : forall p q p' q', pt_eqb p p' = true -> pt_eqb q q' = true -> pt_eqb p q = pt_eqb p' q').
    { intros p q p' q' A B. apply pt_eqb_key in A, B. destruct (pt_eqb p q) eqn:E, (pt_eqb p' q') eqn:F; try reflexivity; [apply pt_eqb_key in E|apply pt_eqb_key in F].
      - rewrite <- F. symmetry. apply pt_eqb_key. congruence.
      - rewrite <- E. apply pt_eqb_key. congruence. }
    intros a b c a' b' c' A B C. cbn. rewrite (Eq a b a' b' A B), (Eq b c b' c' B C), (Eq a c a' c' A C). reflexivity.
Qed.

(** ** C73 Meshing without correcting the normals *)
(** With ensure_outward_normals=False the elements of a single path or surface keep the direction its
    discretisation gave them. *)
Theorem C73_single_partial o x name :
  (input_ok (mb_points x) (mb_elements x) no_triangles [] [] ->
     exists m, member_mesh o Paths x name false = Ok m /\ Forall2 (fun r r' => same_place (mb_points x) r (m_points m) r') (arows (mb_elements x)) (arows (m_lines m))) /\
  (input_ok (mb_points x) no_lines (mb_elements x) [] [] ->
     exists m, member_mesh o Surfaces x name false = Ok m /\ Forall2 (fun r r' => same_place (mb_points x) r (m_points m) r') (filter (survives o (mb_points x)) (arows (mb_elements x))) (arows (m_triangles m))).
Proof.
  split; intros Hin.
  - assert (Hin' : input_ok (mb_points x) (mb_elements x) no_triangles (one_group (name_or name (mb_name x)) (length (arows (mb_elements x)))) []) by (destruct Hin; constructor; try assumption; apply one_group_ok).
    destruct (new_mesh_total o _ _ _ _ _ false Hin') as (m & E & _ & B). exists m. split; [exact E|]. apply (proj1 (b_exact _ _ _ _ _ _ _ _ B eq_refl)).
  - assert (Hin' : input_ok (mb_points x) no_lines (mb_elements x) [] (one_group (name_or name (mb_name x)) (length (arows (mb_elements x))))) by (destruct Hin; constructor; try assumption; apply one_group_ok).
    destruct (new_mesh_total o _ _ _ _ _ false Hin') as (m & E & _ & B). exists m. split; [exact E|]. apply (proj2 (b_exact _ _ _ _ _ _ _ _ B eq_refl)).
Qed.
Print Assumptions C73_single_partial.

(** The same argument has no effect on a collection: whenever the outwardness test tells the two directions of a line
    apart, there is a named path that is meshed as it is on its own, and reversed as the only member of a collection. *)
Theorem C73_refuted o : (forall pts, o_line_outwards o pts [[1; 0]] = negb (o_line_outwards o pts [[0; 1]])) ->
  exists x m m', input_ok (mb_points x) (mb_elements x) no_triangles [] [] /\
    member_mesh o Paths x None false = Ok m /\ collection_mesh o Paths [x] None None false = Ok m' /\
    m_points m' = m_points m /\ arows (m_lines m') = map reversed_line (arows (m_lines m)) /\ arows (m_lines m') <> arows (m_lines m).
Proof.
  intros Hodd. pose (pts := [(f0, f0, f0); (f1, f0, f0)]). specialize (Hodd pts). unfold pts in Hodd. clear pts.
  assert (Hin : forall a b, (a = f0 /\ b = f1) \/ (a = f1 /\ b = f0) -> input_ok (mb_points (ex_member a b (Some "p"%string))) (mb_elements (ex_member a b (Some "p"%string))) no_triangles [] []).
  { intros a b [[-> ->]|[-> ->]]; apply input_okb_ok; vm_compute; reflexivity. }
  assert (M1 : member_mesh o Paths (ex_member f0 f1 (Some "p"%string)) None false = Ok (one_line "p" 0 1)) by (vm_compute; reflexivity).
  assert (M2 : member_mesh o Paths (ex_member f1 f0 (Some "p"%string)) None false = Ok (one_line "p" 1 0)) by (vm_compute; reflexivity).
  assert (C : forall a b, mesh_add o empty_mesh (one_line "p" a b) = new_mesh o (m_points (one_line "p" a b)) (m_lines (one_line "p" a b)) no_triangles [("p"%string, [0])] [] true).
  { intros a b. unfold mesh_add. cbn. rewrite !Nat.add_0_r. reflexivity. }
  assert (CM : forall a b i j, member_mesh o Paths (ex_member a b (Some "p"%string)) None false = Ok (one_line "p" i j) -> collection_mesh o Paths [ex_member a b (Some "p"%string)] None None false = mesh_add o empty_mesh (one_line "p" i j)).
  { intros a b i j E. unfold collection_mesh. rewrite empty_built. cbn [bind sum_members name_or]. rewrite E. cbn [bind]. destruct (mesh_add o empty_mesh (one_line "p" i j)); reflexivity. }
  destruct (o_line_outwards o [(f0, f0, f0); (f1, f0, f0)] [[0; 1]]) eqn:E0; cbn in Hodd.
  - exists (ex_member f1 f0 (Some "p"%string)), (one_line "p" 1 0), (one_line "p" 0 1). split; [apply Hin; auto|]. split; [exact M2|]. split; [|repeat split; cbn; discriminate].
    rewrite (CM _ _ _ _ M2), C, one_line_new by auto. rewrite E0. reflexivity.
  - exists (ex_member f0 f1 (Some "p"%string)), (one_line "p" 0 1), (one_line "p" 1 0). split; [apply Hin; auto|]. split; [exact M1|]. split; [|repeat split; cbn; discriminate].
    rewrite (CM _ _ _ _ M1), C, one_line_new by auto. rewrite Hodd. reflexivity.
Qed.
Print Assumptions C73_refuted.
Example C73_nonvacuous : input_ok (mb_points (ex_member f0 f1 None)) (mb_elements (ex_member f0 f1 None)) no_triangles [] [] /\
  (forall pts, o_line_outwards ex_o pts [[1; 0]] = negb (o_line_outwards ex_o pts [[0; 1]])).
Proof. split; [apply input_okb_ok; vm_compute; reflexivity|reflexivity]. Qed.

(** ** C74 Removing the lines or the triangles of a mesh *)
Theorem C74_remove_lines o m : mesh_ok m -> canonical_points (m_points m) -> aw (m_triangles m) = 3 ->
  (forall r, In r (arows (m_triangles m)) -> survives o (m_points m) r = true) ->
  exists m', remove_lines o m = Ok m' /\ arows (m_lines m') = [] /\ m_plines m' = [] /\ m_points m' = m_points m /\
    Forall2 (fun r r' => r' = r \/ r' = reversed_triangle r) (arows (m_triangles m)) (arows (m_triangles m')) /\
    (forall name, dget (m_ptriangles m') name = dget (m_ptriangles m) name).
Proof.
  intros K Hc Hw Hs. destruct K as [Kp Kl Kt Kpl Kpt].
  assert (Hin : input_ok (m_points m) no_lines (m_triangles m) [] (m_ptriangles m)) by (constructor; try assumption; [apply arr_nil|apply groups_nil]).
  destruct (new_mesh_total o _ _ _ _ _ true Hin) as (m' & E & K' & B). exists m'. split; [exact E|]. destruct B.
  assert (Ep : m_points m' = m_points m).
  { apply canonical_unique; try assumption.
    - intros q Hq. destruct (b_points q Hq) as (p & Hp & ->). destruct Hc as [_ Htr]. rewrite Forall_forall in Htr. rewrite (Htr p Hp). exact Hp.
    - intros k. rewrite b_keys, (canonical_keys _ Hc). tauto. }
  repeat split.
  - inversion b_lines. reflexivity.
  - exact b_pl.
  - exact Ep.
  - rewrite filter_all in b_tris by exact Hs. rewrite Ep in b_tris. eapply Forall2_impl_all; [|exact b_tris].
    intros r r' [H|H]; [left|right]; apply (same_place_canonical _ _ _ Hc H).
  - intros name. destruct (dget (m_ptriangles m) name) as [v|] eqn:Ev.
    + destruct (b_pt name v Ev) as (v' & -> & ->). f_equal. destruct Kpt as [_ Kg]. pose proof (dget_In _ _ _ Ev) as Hv. unfold survivors. rewrite filter_all.
      * rewrite <- (map_id v) at 2. apply map_ext_in. intros i Hi. unfold rank. rewrite filter_all; [|intros r Hr; apply Hs; rewrite <- (firstn_skipn i); apply in_app_iff; left; exact Hr].
        rewrite firstn_length. specialize (Kg name v i Hv Hi). lia.
      * intros i Hi. specialize (Kg name v i Hv Hi). destruct (nth_error (arows (m_triangles m)) i) eqn:En; [apply Hs; exact (nth_error_In _ _ En)|apply nth_error_None in En; lia].
    + apply dget_None. rewrite b_ptkeys. apply dget_None. exact Ev.
Qed.
Print Assumptions C74_remove_lines.

Theorem C74_remove_triangles o m : mesh_ok m -> canonical_points (m_points m) ->
  exists m', remove_triangles o m = Ok m' /\ arows (m_triangles m') = [] /\ m_ptriangles m' = [] /\ m_points m' = m_points m /\
    Forall2 (fun r r' => r' = r \/ r' = reversed_line r) (arows (m_lines m)) (arows (m_lines m')) /\
    m_plines m' = m_plines m /\ is_higher_order m' = is_higher_order m.
Proof.
  intros K Hc. destruct K as [Kp Kl Kt Kpl Kpt].
  assert (Hin : input_ok (m_points m) (m_lines m) no_triangles (m_plines m) []) by (constructor; try assumption; [apply arr_nil|apply groups_nil]).
  destruct (new_mesh_total o _ _ _ _ _ true Hin) as (m' & E & K' & B). exists m'. split; [exact E|]. destruct B.
  assert (Ep : m_points m' = m_points m).
  { apply canonical_unique; try assumption.
    - intros q Hq. destruct (b_points q Hq) as (p & Hp & ->). destruct Hc as [_ Htr]. rewrite Forall_forall in Htr. rewrite (Htr p Hp). exact Hp.
    - intros k. rewrite b_keys, (canonical_keys _ Hc). tauto. }
  repeat split.
  - inversion b_tris. reflexivity.
  - destruct (m_ptriangles m') as [|g t] eqn:Eg; [reflexivity|]. cbn in b_ptkeys. discriminate.
  - exact Ep.
  - rewrite Ep in b_lines. eapply Forall2_impl_all; [|exact b_lines]. intros r r' [H|H]; [left|right]; apply (same_place_canonical _ _ _ Hc H).
  - exact b_pl.
  - unfold is_higher_order. rewrite b_lw. reflexivity.
Qed.
Print Assumptions C74_remove_triangles.
Example C74_nonvacuous : mesh_ok ex_mesh /\ canonical_points (m_points ex_mesh) /\ aw (m_triangles ex_mesh) = 3 /\
  (forall r, In r (arows (m_triangles ex_mesh)) -> survives ex_o (m_points ex_mesh) r = true) /\
  exists a b, remove_lines ex_o ex_mesh = Ok a /\ length (arows (m_triangles a)) = 2 /\ dget (m_ptriangles a) "half" = Some [1] /\
    remove_triangles ex_o ex_mesh = Ok b /\ length (arows (m_lines b)) = 2.
Proof.
  destruct (new_mesh_total ex_o _ _ _ _ _ true ex_input) as (m & E & K & B). rewrite ex_mesh_ok_run in E. injection E as <-. destruct B.
  split; [exact K|]. split; [exact b_canon|]. split; [exact b_tw|]. split.
  - rewrite ex_mesh_value. cbn. intros r [<-|[<-|[]]]; vm_compute; reflexivity.
  - eexists _, _. vm_compute. repeat split.
Qed.
