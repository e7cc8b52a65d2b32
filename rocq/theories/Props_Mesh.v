(** Property theorems about meshes: C01-C10, C14, C15, C52. *)
From Coq Require Import Permutation Relations Sorted.
From Verif Require Import Base Float64 OrientModel MeshModel MeshSpec BaseFacts Float64Facts
  OrientFacts LabelFacts DedupFacts MeshFacts MeshCtor MeshOps MeshExtract OrientConsist MeshMisc
  MeshExamples MeshPropFacts.

(** ** C01 Mesh construction keeps the geometry of every element *)
Theorem C01_elements_stay_in_place o points lines triangles pl pt ens m :
  input_ok points lines triangles pl pt ->
  new_mesh o points lines triangles pl pt ens = Ok m ->
  Forall2 (fun r r' => same_line points r (m_points m) r') (arows lines) (arows (m_lines m)) /\
  Forall2 (fun r r' => same_triangle points r (m_points m) r')
    (filter (survives o points) (arows triangles)) (arows (m_triangles m)) /\
  (ens = false ->
     Forall2 (fun r r' => same_place points r (m_points m) r') (arows lines) (arows (m_lines m)) /\
     Forall2 (fun r r' => same_place points r (m_points m) r')
       (filter (survives o points) (arows triangles)) (arows (m_triangles m))).
Proof.
  intros Hin Em. destruct (new_mesh_built _ _ _ _ _ _ _ _ Hin Em). auto.
Qed.
Print Assumptions C01_elements_stay_in_place.

(** What [pt_trunc] in [same_place] does to one coordinate: clears 16 bits, keeps the sign,
    and moves the value towards zero by less than 2^16 units in the last place. *)
Theorem C01_rounding_is_small b :
  f64_bits b ->
  f64_trunc b = (65536 * (b / 65536))%Z /\
  ((0 <= f64_key b)%Z /\ (0 <= f64_key b - f64_key (f64_trunc b) < 65536)%Z \/
   (f64_key b <= 0)%Z /\ (0 <= f64_key (f64_trunc b) - f64_key b < 65536)%Z).
Proof. intros H; split; [apply trunc_value|apply f64_trunc_key]; exact H. Qed.
Print Assumptions C01_rounding_is_small.

Example C01_nonvacuous :
  input_ok ex_points ex_lines ex_tris ex_pl ex_pt /\
  new_mesh ex_o ex_points ex_lines ex_tris ex_pl ex_pt true = Ok ex_mesh /\
  arows (m_lines ex_mesh) = [[1; 3]; [3; 4]] /\ length (m_points ex_mesh) = 5 /\
  filter (survives ex_o ex_points) (arows ex_tris) = [[1; 0; 2]; [0; 3; 2]].
Proof. split; [exact ex_input|]. vm_compute. repeat split. Qed.

(** ** C02 No duplicate points *)
Theorem C02_points_sorted_without_duplicates o points lines triangles pl pt ens m :
  input_ok points lines triangles pl pt ->
  new_mesh o points lines triangles pl pt ens = Ok m ->
  (forall i j p q, i < j -> nth_error (m_points m) i = Some p -> nth_error (m_points m) j = Some q ->
     before_zyx p q /\ pt_eqb p q = false) /\
  (forall p, In p points -> exists q, In q (m_points m) /\ pt_eqb q (pt_trunc p) = true) /\
  (forall q, In q (m_points m) -> exists p, In p points /\ q = pt_trunc p).
Proof. exact (points_sorted o points lines triangles pl pt ens m). Qed.
Print Assumptions C02_points_sorted_without_duplicates.

Theorem C02_points_depend_only_on_the_set_of_points
    o1 o2 ps1 l1 t1 pl1 pt1 e1 m1 ps2 l2 t2 pl2 pt2 e2 m2 :
  input_ok ps1 l1 t1 pl1 pt1 -> input_ok ps2 l2 t2 pl2 pt2 ->
  (forall p, In p ps1 -> exists q, In q ps2 /\ pt_eqb (pt_trunc p) (pt_trunc q) = true) ->
  (forall q, In q ps2 -> exists p, In p ps1 /\ pt_eqb (pt_trunc p) (pt_trunc q) = true) ->
  new_mesh o1 ps1 l1 t1 pl1 pt1 e1 = Ok m1 -> new_mesh o2 ps2 l2 t2 pl2 pt2 e2 = Ok m2 ->
  same_points (m_points m1) (m_points m2).
Proof. exact (points_determined o1 o2 ps1 l1 t1 pl1 pt1 e1 m1 ps2 l2 t2 pl2 pt2 e2 m2). Qed.
Print Assumptions C02_points_depend_only_on_the_set_of_points.

Example C02_nonvacuous :
  let ps := [(f1, f0, f0); (f0, f0, f0); (f1eps, f0, f0)] in
  let qs := [(f1, f0, f0); (f0, f0, f0)] in
  input_ok ps no_lines no_triangles [] [] /\ input_ok qs no_lines no_triangles [] [] /\
  (forall p, In p ps -> exists q, In q qs /\ pt_eqb (pt_trunc p) (pt_trunc q) = true) /\
  (forall q, In q qs -> exists p, In p ps /\ pt_eqb (pt_trunc p) (pt_trunc q) = true) /\
  new_mesh ex_o ps no_lines no_triangles [] [] true =
    Ok (mkmesh [(f0, f0, f0); (f1, f0, f0)] no_lines no_triangles [] []).
Proof.
  cbv zeta. split; [apply input_okb_ok; vm_compute; reflexivity|].
  split; [apply input_okb_ok; vm_compute; reflexivity|]. split; [|split; [|vm_compute; reflexivity]].
  - intros p [<-|[<-|[<-|[]]]];
      [exists (f1, f0, f0)|exists (f0, f0, f0)|exists (f1, f0, f0)]; simpl; auto.
  - intros q [<-|[<-|[]]]; [exists (f1, f0, f0)|exists (f0, f0, f0)]; simpl; auto.
Qed.

(** ** C03 Named groups survive construction *)
Theorem C03_groups_survive o points lines triangles pl pt ens m :
  input_ok points lines triangles pl pt ->
  new_mesh o points lines triangles pl pt ens = Ok m ->
  m_plines m = pl /\ dkeys (m_ptriangles m) = dkeys pt /\
  forall name v, dget pt name = Some v ->
    exists v', dget (m_ptriangles m) name = Some v' /\
      Forall2 (fun i i' => exists r r', nth_error (arows triangles) i = Some r /\
                 nth_error (arows (m_triangles m)) i' = Some r' /\
                 survives o points r = true /\
                 i' = rank (survives o points) (arows triangles) i /\
                 same_triangle points r (m_points m) r')
        (survivors o points (arows triangles) v) v'.
Proof. exact (groups_survive o points lines triangles pl pt ens m). Qed.
Print Assumptions C03_groups_survive.

Example C03_nonvacuous :
  input_ok ex_points ex_lines ex_tris ex_pl ex_pt /\
  new_mesh ex_o ex_points ex_lines ex_tris ex_pl ex_pt true = Ok ex_mesh /\
  survivors ex_o ex_points (arows ex_tris) [2; 1; 0] = [2; 0] /\
  dget (m_ptriangles ex_mesh) "square"%string = Some [1; 0].
Proof. split; [exact ex_input|]. vm_compute. repeat split. Qed.

(** ** C04 Mesh construction always yields a valid mesh *)
Theorem C04_construction_total o points lines triangles pl pt ens :
  input_ok points lines triangles pl pt ->
  exists m, new_mesh o points lines triangles pl pt ens = Ok m /\
    (* a valid mesh again *)
    (forall r i, In r (arows (m_lines m)) -> In i r -> i < length (m_points m)) /\
    (forall r i, In r (arows (m_triangles m)) -> In i r -> i < length (m_points m)) /\
    (forall name v i, dget (m_plines m) name = Some v -> In i v -> i < length (arows (m_lines m))) /\
    (forall name v i, dget (m_ptriangles m) name = Some v -> In i v -> i < length (arows (m_triangles m))) /\
    mesh_ok m.
Proof.
  intros Hin. destruct (new_mesh_total o _ _ _ _ _ ens Hin) as (m & Em & Hok & _).
  exists m. pose proof Hok as [Kp Kl Kt Kpl Kpt]. split; [exact Em|].
  split; [intros r i Hr; apply Kl; exact Hr|]. split; [intros r i Hr; apply Kt; exact Hr|].
  split; [intros name v i Hv; apply (proj2 Kpl name); apply dget_In; exact Hv|].
  split; [intros name v i Hv; apply (proj2 Kpt name); apply dget_In; exact Hv|exact Hok].
Qed.
Print Assumptions C04_construction_total.

Example C04_nonvacuous : input_ok ex_points ex_lines ex_tris ex_pl ex_pt.
Proof. exact ex_input. Qed.

(** ** C05 Adding meshes is the union of their elements and groups *)
Theorem C05_sum_total o m1 m2 :
  mesh_ok m1 -> mesh_ok m2 -> compatible (m_lines m1) (m_lines m2) ->
  exists m, mesh_add o m1 m2 = Ok m /\ mesh_ok m.
Proof.
  intros H1 H2 Hc. destruct (mesh_add_total o m1 m2 H1 H2 Hc) as (m & E & S).
  exists m. split; [exact E|apply S].
Qed.
Print Assumptions C05_sum_total.

Theorem C05_sum_is_union o m1 m2 m :
  mesh_ok m1 -> mesh_ok m2 -> mesh_add o m1 m2 = Ok m ->
  (exists l1 l2, arows (m_lines m) = l1 ++ l2 /\
     Forall2 (fun r r' => same_line (m_points m1) r (m_points m) r') (arows (m_lines m1)) l1 /\
     Forall2 (fun r r' => same_line (m_points m2) r (m_points m) r') (arows (m_lines m2)) l2) /\
  (exists t1 t2, arows (m_triangles m) = t1 ++ t2 /\
     Forall2 (fun r r' => same_triangle (m_points m1) r (m_points m) r')
        (filter (survives o (m_points m1)) (arows (m_triangles m1))) t1 /\
     Forall2 (fun r r' => same_triangle (m_points m2) r (m_points m) r')
        (filter (survives o (m_points m2)) (arows (m_triangles m2))) t2) /\
  (forall name, dget (m_plines m) name =
     both (dget (m_plines m1) name)
          (option_map (map (fun i => i + length (arows (m_lines m1)))) (dget (m_plines m2) name))) /\
  (forall name, dget (m_ptriangles m) name =
     both (option_map (kept_positions o m1) (dget (m_ptriangles m1) name))
          (option_map (fun v => map (fun i => i + length (filter (survives o (m_points m1))
                                                            (arows (m_triangles m1))))
                                    (kept_positions o m2 v)) (dget (m_ptriangles m2) name))).
Proof.
  intros H1 H2 E. destruct (mesh_add_sum o m1 m2 m H1 H2 E). auto.
Qed.
Print Assumptions C05_sum_is_union.

Theorem C05_different_orders_are_rejected o m1 m2 :
  ~ compatible (m_lines m1) (m_lines m2) -> mesh_add o m1 m2 = Err AssertionError.
Proof. exact (add_incompatible o m1 m2). Qed.
Print Assumptions C05_different_orders_are_rejected.

Definition ex_other : mesh :=
  mkmesh [(f0, f0, f0); (f0, f0, f2)] (mkarr 2 [[0; 1]]) no_triangles [("path"%string, [0])] [].
Example C05_nonvacuous :
  mesh_ok ex_mesh /\ mesh_ok ex_other /\ compatible (m_lines ex_mesh) (m_lines ex_other) /\
  exists m, mesh_add ex_o ex_mesh ex_other = Ok m /\
    dget (m_plines m) "path"%string = Some [0; 1; 2] /\ length (m_points m) = 6.
Proof.
  split; [apply input_okb_ok; vm_compute; reflexivity|].
  split; [apply input_okb_ok; vm_compute; reflexivity|].
  split; [right; right; reflexivity|]. eexists. vm_compute. repeat split.
Qed.

(** ** C06 Points of sums do not depend on order or bracketing *)
Theorem C06_points_commute o a b ab ba :
  mesh_ok a -> mesh_ok b -> mesh_add o a b = Ok ab -> mesh_add o b a = Ok ba ->
  same_points (m_points ab) (m_points ba).
Proof.
  intros Ha Hb E1 E2.
  exact (sum_points_comm o a b ab ba (mesh_add_sum _ _ _ _ Ha Hb E1) (mesh_add_sum _ _ _ _ Hb Ha E2)).
Qed.
Print Assumptions C06_points_commute.

Theorem C06_points_associate o a b c ab abc bc abc' :
  mesh_ok a -> mesh_ok b -> mesh_ok c ->
  mesh_add o a b = Ok ab -> mesh_add o ab c = Ok abc ->
  mesh_add o b c = Ok bc -> mesh_add o a bc = Ok abc' ->
  same_points (m_points abc) (m_points abc').
Proof.
  intros Ha Hb Hc E1 E2 E3 E4.
  pose proof (mesh_add_sum _ _ _ _ Ha Hb E1) as S1.
  pose proof (mesh_add_sum _ _ _ _ Hb Hc E3) as S3.
  pose proof (mesh_add_sum _ _ _ _ (sum_ok _ _ _ _ S1) Hc E2) as S2.
  pose proof (mesh_add_sum _ _ _ _ Ha (sum_ok _ _ _ _ S3) E4) as S4.
  exact (sum_points_assoc o a b c ab abc bc abc' S1 S2 S3 S4).
Qed.
Print Assumptions C06_points_associate.

(** Adding the empty mesh on either side; building a mesh from a mesh. The hypothesis says the
    mesh is one that construction produced without degenerate triangles. *)
Theorem C06_adding_nothing o m s :
  mesh_ok m -> canonical_points (m_points m) ->
  (forall r, In r (arows (m_triangles m)) -> survives o (m_points m) r = true) ->
  mesh_add o m empty_mesh = Ok s \/ mesh_add o empty_mesh m = Ok s ->
  m_points s = m_points m /\
  Forall2 (fun r r' => r' = r \/ r' = reversed_line r) (arows (m_lines m)) (arows (m_lines s)) /\
  Forall2 (fun r r' => r' = r \/ r' = reversed_triangle r) (arows (m_triangles m)) (arows (m_triangles s)) /\
  (forall name, dget (m_plines s) name = dget (m_plines m) name) /\
  (forall name, dget (m_ptriangles s) name = dget (m_ptriangles m) name).
Proof.
  intros Hok Hc Hs HE. apply (add_empty o m Hok Hc Hs).
  assert (H0 : mesh_ok empty_mesh) by (apply input_okb_ok; reflexivity).
  destruct HE as [E|E]; [left|right]; apply mesh_add_sum; assumption.
Qed.
Print Assumptions C06_adding_nothing.

Theorem C06_rebuilding_renumbers_nothing o m :
  mesh_ok m -> canonical_points (m_points m) -> aw (m_triangles m) = 3 ->
  (forall r, In r (arows (m_triangles m)) -> survives o (m_points m) r = true) ->
  new_mesh o (m_points m) (m_lines m) (m_triangles m) (m_plines m) (m_ptriangles m) false = Ok m.
Proof. exact (rebuild_fixpoint o m). Qed.
Print Assumptions C06_rebuilding_renumbers_nothing.

(** Every constructed mesh has canonical points and triangles of width 3. *)
Theorem C06_constructed_meshes_are_canonical o points lines triangles pl pt ens m :
  input_ok points lines triangles pl pt ->
  new_mesh o points lines triangles pl pt ens = Ok m ->
  mesh_ok m /\ canonical_points (m_points m) /\ aw (m_triangles m) = 3.
Proof.
  intros Hin Em. destruct (new_mesh_total o _ _ _ _ _ ens Hin) as (m' & Em' & Hok & B).
  assert (m' = m) by congruence. subst m'. destruct B. auto.
Qed.
Print Assumptions C06_constructed_meshes_are_canonical.

Example C06_nonvacuous :
  mesh_ok ex_mesh /\ canonical_points (m_points ex_mesh) /\ aw (m_triangles ex_mesh) = 3 /\
  (forall r, In r (arows (m_triangles ex_mesh)) -> survives ex_o (m_points ex_mesh) r = true) /\
  exists s, mesh_add ex_o ex_mesh empty_mesh = Ok s /\ length (arows (m_lines s)) = 2.
Proof.
  destruct (C06_constructed_meshes_are_canonical _ _ _ _ _ _ _ _ ex_input ex_mesh_ok_run) as (A & B & C).
  split; [exact A|]. split; [exact B|]. split; [exact C|]. split.
  - rewrite ex_mesh_value. simpl. intros r [<-|[<-|[]]]; vm_compute; reflexivity.
  - eexists. vm_compute. repeat split.
Qed.

(** ** C07 Extracting a group *)
Theorem C07_extract_line_group o m name v :
  mesh_ok m -> dget (m_plines m) name = Some v ->
  exists m' idx, extract_physical_group o m name = Ok m' /\ mesh_ok m' /\
    StronglySorted lt idx /\ (forall i, In i idx <-> In i v) /\
    Forall2 (fun i r' => exists r, nth_error (arows (m_lines m)) i = Some r /\
                                   same_line (m_points m) r (m_points m') r') idx (arows (m_lines m')) /\
    arows (m_triangles m') = [] /\ m_plines m' = [(name, arange (length idx))] /\ m_ptriangles m' = [] /\
    (forall q, In q (m_points m') -> exists i r k p, In i v /\ nth_error (arows (m_lines m)) i = Some r /\
       In k r /\ nth_error (m_points m) k = Some p /\ q = pt_trunc p).
Proof. exact (extract_lines o m name v). Qed.
Print Assumptions C07_extract_line_group.

Theorem C07_extract_triangle_group o m name v :
  mesh_ok m -> dget (m_plines m) name = None -> dget (m_ptriangles m) name = Some v ->
  exists m' idx, extract_physical_group o m name = Ok m' /\ mesh_ok m' /\
    StronglySorted lt idx /\ (forall i, In i idx <-> In i v) /\
    Forall2 (fun i r' => exists r, nth_error (arows (m_triangles m)) i = Some r /\
                                   same_triangle (m_points m) r (m_points m') r')
       (survivors o (m_points m) (arows (m_triangles m)) idx) (arows (m_triangles m')) /\
    arows (m_lines m') = [] /\ m_plines m' = [] /\ dkeys (m_ptriangles m') = [name] /\
    dget (m_ptriangles m') name = Some (arange (length (arows (m_triangles m')))) /\
    (forall q, In q (m_points m') -> exists i r k p, In i v /\ nth_error (arows (m_triangles m)) i = Some r /\
       In k r /\ nth_error (m_points m) k = Some p /\ q = pt_trunc p).
Proof. exact (extract_triangles o m name v). Qed.
Print Assumptions C07_extract_triangle_group.

Theorem C07_unknown_group o m name :
  ~ In name (get_electrodes m) -> extract_physical_group o m name = Err AssertionError.
Proof. exact (extract_unknown o m name). Qed.
Print Assumptions C07_unknown_group.

Example C07_nonvacuous :
  mesh_ok ex_mesh /\ dget (m_plines ex_mesh) "path"%string = Some [0; 1] /\
  dget (m_plines ex_mesh) "half"%string = None /\ dget (m_ptriangles ex_mesh) "half"%string = Some [1] /\
  ~ In "nothing"%string (get_electrodes ex_mesh).
Proof.
  split; [apply input_okb_ok; vm_compute; reflexivity|]. repeat split; try reflexivity.
  vm_compute. intros [H|[H|[H|[]]]]; discriminate.
Qed.

(** ** C08 Connected pieces *)
Theorem C08_connected_pieces els :
  exists pieces, get_connected_elements els = Ok pieces /\
    Permutation (concat pieces) (seq 0 (length els)) /\
    Forall (fun p => p <> []) pieces /\
    (forall p, In p pieces -> forall i j, In i p -> In j p <-> connected els i j).
Proof. exact (connected_elements_partition els). Qed.
Print Assumptions C08_connected_pieces.

Example C08_nonvacuous : get_connected_elements [[0;1]; [2;3]; [1;4]; [5;3]; [6;7]] = Ok [[0;2]; [1;3]; [4]].
Proof. vm_compute. reflexivity. Qed.

(** ** C09 Consistent line orientation *)
Theorem C09_lines_head_to_tail els :
  els <> [] -> all_width 2 els || all_width 4 els = true ->
  (forall v, degree els v <= 2) -> inner_points_free els -> ends_connected els ->
  exists els', reorient_lines els = Ok els' /\
    Forall2 (fun r r' => r' = r \/ r' = reversed_line r) els els' /\ head_to_tail els'.
Proof.
  intros Hne Hw Hd Hi Hc.
  assert (T : exists els', reorient_lines els = Ok els').
  { apply orb_true_iff in Hw. destruct Hw as [Hw|Hw];
      [apply (reorient_lines_total 2)|apply (reorient_lines_total 4)]; auto;
      apply Forall_forall; intros r Hr; unfold all_width in Hw; rewrite forallb_forall in Hw;
      apply Hw in Hr; apply Nat.eqb_eq; exact Hr. }
  destruct T as (els' & E). exists els'. split; [exact E|].
  split; [exact (reorient_lines_sf _ _ E)|]. eapply reorient_lines_consistent; eauto.
Qed.
Print Assumptions C09_lines_head_to_tail.

Lemma degree_small els v : ~ In v (concat (map (firstn 2) els)) -> degree els v = 0.
Proof. intros H. unfold degree. apply count_occ_not_In. exact H. Qed.
Definition ex_loop : list row := [[0;1]; [2;1]; [2;3]; [0;3]].
Example C09_nonvacuous :
  ex_loop <> [] /\ all_width 2 ex_loop || all_width 4 ex_loop = true /\
  (forall v, degree ex_loop v <= 2) /\ inner_points_free ex_loop /\ ends_connected ex_loop /\
  ~ head_to_tail ex_loop /\ reorient_lines ex_loop = Ok [[1;0]; [2;1]; [3;2]; [0;3]].
Proof.
  repeat split.
  - discriminate.
  - intros v. do 4 (destruct v as [|v]; [vm_compute; repeat constructor|]).
    rewrite degree_small; [lia|]. simpl. intuition discriminate.
  - intros i j r s v Hr Hs Hv. exfalso. apply nth_error_In in Hr.
    destruct Hr as [<-|[<-|[<-|[<-|[]]]]]; simpl in Hv; exact Hv.
  - assert (S : forall i j a b v, nth_error (map (firstn 2) ex_loop) i = Some a ->
                nth_error (map (firstn 2) ex_loop) j = Some b -> In v a -> In v b ->
                connected (map (firstn 2) ex_loop) i j).
    { intros. apply rt_step. exists a, b, v. auto. }
    intros i Hi. destruct i as [|[|[|[|i]]]]; simpl in Hi; try lia.
    + apply rt_refl.
    + apply (S 0 1 [0;1] [2;1] 1); simpl; auto.
    + eapply rt_trans; [apply (S 0 1 [0;1] [2;1] 1)|apply (S 1 2 [2;1] [2;3] 2)]; simpl; auto.
    + apply (S 0 3 [0;1] [0;3] 0); simpl; auto.
  - intros H. destruct (H 0 1 0 1 [] 2 1 []) as [_ H1]; simpl; auto.
Qed.

(** ** C10 Consistent triangle orientation *)
Theorem C10_triangles_oppose_along_edges o pts els :
  Forall (fun r : row => length r = 3) els -> comparison_ok o pts els ->
  (exists ref, Forall2 (fun r r' => r' = r \/ r' = reversed_triangle r) els ref /\ opposite_edges ref) ->
  (forall i, i < length els -> edge_connected els 0 i) ->
  exists els', reorient_triangles o pts els = Ok els' /\
    Forall2 (fun r r' => r' = r \/ r' = reversed_triangle r) els els' /\ opposite_edges els'.
Proof.
  intros Hw Hc Hr He. destruct (reorient_triangles_total o pts els Hw) as (els' & E).
  exists els'. split; [exact E|]. split; [exact (reorient_triangles_sf _ _ _ _ E)|].
  eapply reorient_triangles_consistent; eauto.
Qed.
Print Assumptions C10_triangles_oppose_along_edges.

(** The four faces of a tetrahedron, wrongly ordered. *)
Definition ex_tetra : list row := [[0;1;2]; [0;1;3]; [1;3;2]; [0;2;3]].
Example C10_nonvacuous :
  Forall (fun r : row => length r = 3) ex_tetra /\ comparison_ok ex_o [] ex_tetra /\
  (exists ref, Forall2 (fun r r' => r' = r \/ r' = reversed_triangle r) ex_tetra ref /\ opposite_edges ref) /\
  (forall i, i < length ex_tetra -> edge_connected ex_tetra 0 i) /\
  ~ opposite_edges ex_tetra /\
  reorient_triangles ex_o [] ex_tetra = Ok [[0;2;1]; [0;1;3]; [1;2;3]; [0;3;2]].
Proof.
  split; [repeat constructor|].
  split.
  { intros r s r' s' Hr Hs Hr' Hs'.
    destruct Hr as [<-|[<-|[<-|[<-|[]]]]]; destruct Hs as [<-|[<-|[<-|[<-|[]]]]];
      destruct Hr' as [->| ->]; destruct Hs' as [->| ->]; unfold compares_edges;
      (split; [|split]); simpl; intros H; try reflexivity; try intros b H1 H2;
      try (exfalso; lia);
      exfalso; first [apply (proj1 (H 0 1 ltac:(lia))); lia | apply (proj2 (H 0 1 ltac:(lia))); lia
        | apply (proj1 (H 1 0 ltac:(lia))); lia | apply (proj2 (H 1 0 ltac:(lia))); lia
        | apply (proj1 (H 1 2 ltac:(lia))); lia | apply (proj2 (H 1 2 ltac:(lia))); lia
        | apply (proj1 (H 2 1 ltac:(lia))); lia | apply (proj2 (H 2 1 ltac:(lia))); lia
        | apply (proj1 (H 0 2 ltac:(lia))); lia | apply (proj2 (H 0 2 ltac:(lia))); lia
        | apply (proj1 (H 2 0 ltac:(lia))); lia | apply (proj2 (H 2 0 ltac:(lia))); lia
        | apply (proj1 (H 0 3 ltac:(lia))); lia | apply (proj2 (H 0 3 ltac:(lia))); lia
        | apply (proj1 (H 3 0 ltac:(lia))); lia | apply (proj2 (H 3 0 ltac:(lia))); lia
        | apply (proj1 (H 1 3 ltac:(lia))); lia | apply (proj2 (H 1 3 ltac:(lia))); lia
        | apply (proj1 (H 3 1 ltac:(lia))); lia | apply (proj2 (H 3 1 ltac:(lia))); lia
        | apply (proj1 (H 2 3 ltac:(lia))); lia | apply (proj2 (H 2 3 ltac:(lia))); lia
        | apply (proj1 (H 3 2 ltac:(lia))); lia | apply (proj2 (H 3 2 ltac:(lia))); lia ]. }
  split.
  { exists [[0;2;1]; [0;1;3]; [1;2;3]; [0;3;2]]. split.
    - repeat constructor; auto; right; reflexivity.
    - intros i j r s a b Hij Hr Hs H1 H2.
      destruct i as [|[|[|[|i]]]]; destruct j as [|[|[|[|j]]]]; simpl in *; try lia;
        try (destruct i; discriminate); try (destruct j; discriminate);
        injection Hr as <-; injection Hs as <-; simpl in *; lia. }
  split.
  { assert (S : forall i j a b r s, nth_error ex_tetra i = Some r -> nth_error ex_tetra j = Some s ->
        directed_edge r a b -> (directed_edge s a b \/ directed_edge s b a) -> edge_connected ex_tetra i j).
    { intros. apply rt_step. exists r, s, a, b. auto. }
    intros i Hi. destruct i as [|[|[|[|i]]]]; simpl in Hi; try lia.
    - apply rt_refl.
    - apply (S 0 1 0 1 [0;1;2] [0;1;3]); simpl; auto; lia.
    - apply (S 0 2 1 2 [0;1;2] [1;3;2]); simpl; auto; lia.
    - apply (S 0 3 2 0 [0;1;2] [0;2;3]); simpl; auto; lia. }
  split.
  - intros H. apply (H 0 1 [0;1;2] [0;1;3] 0 1); simpl; auto; lia.
  - vm_compute. reflexivity.
Qed.

(** ** C14 flip_normals *)
(** Elements in no named group are reversed; all elements and groups are kept.  That elements
    of named groups are reversed as well does not hold: see [C14_refuted]. *)
Theorem C14_flip_normals_partial o m :
  mesh_ok m -> canonical_points (m_points m) -> aw (m_triangles m) = 3 ->
  (forall a b c, o_degenerate o a c b = o_degenerate o a b c) ->
  (forall r, In r (arows (m_triangles m)) -> survives o (m_points m) r = true) ->
  exists m', flip_normals o m = Ok m' /\ mesh_ok m' /\ m_points m' = m_points m /\
    Forall2 (fun r r' => r' = r \/ r' = reversed_line r) (arows (m_lines m)) (arows (m_lines m')) /\
    Forall2 (fun r r' => r' = r \/ r' = reversed_triangle r) (arows (m_triangles m)) (arows (m_triangles m')) /\
    m_plines m' = m_plines m /\
    (forall name, dget (m_ptriangles m') name = dget (m_ptriangles m) name) /\
    (forall k r, nth_error (arows (m_lines m)) k = Some r ->
       (forall name v, dget (m_plines m) name = Some v -> ~ In k v) ->
       nth_error (arows (m_lines m')) k = Some (reversed_line r)) /\
    (forall k r, nth_error (arows (m_triangles m)) k = Some r ->
       (forall name v, dget (m_ptriangles m) name = Some v -> ~ In k v) ->
       nth_error (arows (m_triangles m')) k = Some (reversed_triangle r)).
Proof. exact (flip_normals_ok o m). Qed.
Print Assumptions C14_flip_normals_partial.

(** Whenever the outwardness test distinguishes the two directions of a line, there is a
    constructed mesh with a named line that flip_normals returns unchanged. *)
Theorem C14_refuted o name :
  (forall pts, o_line_outwards o pts [[1; 0]] = negb (o_line_outwards o pts [[0; 1]])) ->
  exists m, mesh_ok m /\ m_plines m = [(name, [0])] /\
    new_mesh o (m_points m) (m_lines m) (m_triangles m) (m_plines m) (m_ptriangles m) true = Ok m /\
    (exists r, In r (arows (m_lines m)) /\ reversed_line r <> r) /\
    flip_normals o m = Ok m.
Proof. exact (flip_named_noop o name). Qed.
Print Assumptions C14_refuted.

Example C14_nonvacuous :
  (forall a b c, o_degenerate ex_o a c b = o_degenerate ex_o a b c) /\
  (forall pts, o_line_outwards ex_o pts [[1; 0]] = negb (o_line_outwards ex_o pts [[0; 1]])) /\
  let m := mkmesh (m_points ex_mesh) (mkarr 2 [[0; 1]]) (mkarr 3 [[0;1;2]; [1;3;2]]) [] [("t"%string, [0])] in
  exists m', flip_normals ex_o m = Ok m' /\ arows (m_lines m') = [[1; 0]] /\
    nth_error (arows (m_triangles m')) 1 = Some [1;2;3].
Proof.
  split; [|split; [reflexivity|eexists; vm_compute; repeat split]].
  intros a b c. simpl. unfold pt_eqb, f64_eqb.
  rewrite (Z.eqb_sym (f64_key (px c)) (f64_key (px b))), (Z.eqb_sym (f64_key (py c)) (f64_key (py b))),
    (Z.eqb_sym (f64_key (pz c)) (f64_key (pz b))).
  repeat match goal with |- context [(?x =? ?y)%Z] => destruct (x =? y)%Z end; reflexivity.
Qed.

(** ** C15 meshio export and import *)
Theorem C15_meshio_roundtrip_partial o m :
  mesh_ok m -> canonical_points (m_points m) -> aw (m_triangles m) = 3 ->
  (forall r, In r (arows (m_triangles m)) -> survives o (m_points m) r = true) ->
  exists m', from_meshio o (to_meshio m) = Ok m' /\
    m_points m' = m_points m /\ arows (m_lines m') = arows (m_lines m) /\
    arows (m_triangles m') = arows (m_triangles m) /\
    m_plines m' = [] /\ m_ptriangles m' = [].
Proof. exact (meshio_roundtrip o m). Qed.
Print Assumptions C15_meshio_roundtrip_partial.

Theorem C15_groups_refuted o :
  exists m, mesh_ok m /\ dget (m_plines m) "electrode"%string = Some [0] /\
    exists m', from_meshio o (to_meshio m) = Ok m' /\ get_electrodes m' = [].
Proof. exact (meshio_loses_groups o). Qed.
Print Assumptions C15_groups_refuted.

(** ** C52 Named elements of every supported order can be constructed *)
(** A six-point triangle is accepted without a name (and is one of the widths the constructor
    checks for) but a named one raises ValueError. *)
Theorem C52_named_six_point_triangles_refuted o name :
  (forall pts r, o_tri_equal o pts r r = 0%Z) ->
  (forall a b c, o_degenerate o a b c = false) ->
  let pts := [(f0,f0,f0);(f1,f0,f0);(f0,f1,f0);(f1,f1,f0);(f0,f0,f1);(f1,f0,f1)] in
  new_mesh o pts no_lines (mkarr 6 [[0;1;2;3;4;5]]) [] [(name, [0])] true = Err ValueError /\
  exists m, new_mesh o pts no_lines (mkarr 6 [[0;1;2;3;4;5]]) [] [(name, [0])] false = Ok m.
Proof. exact (triangle6_raises o name). Qed.
Print Assumptions C52_named_six_point_triangles_refuted.
