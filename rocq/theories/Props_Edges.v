(** Property theorems about the comparison of neighbouring triangles: C68. *)
From Coq Require Import Reals Lra Lia Psatz.
From Verif Require Import Base BaseFacts Float64 OrientModel MeshSpec OrientFacts MeshFacts OrientConsist Vec GeomModel GeomFacts OutwardSpec OutwardFacts TriangleModel EdgeModel Props_Mesh Props_Geom.
Local Open Scope R_scope.

(** ** Specification *)
(** The cosine of the angle between the edges from [v] to [a] and from [v] to [b]. *)
Definition cos_angle (v a b : vec3) : R := dot (vsub a v) (vsub b v) / (dist3 a v * dist3 b v).
(** Different edges of the two triangles at a common vertex point in different directions (by more than about
    1.4e-7 radians). *)
Definition edges_apart (pos : nat -> vec3) (r s : row) : Prop :=
  forall v a b, In v r -> In v s -> In a r -> In b s -> a <> v -> b <> v -> a <> b -> cos_angle (pos v) (pos a) (pos b) <= 1 - 1 / 10 ^ 14.

(** ** Facts *)
Lemma last_such_spec {T} (p : T -> bool) l : match last_such p l with
  | Some x => In x l /\ p x = true
  | None => forall x, In x l -> p x = false end.
Proof.
  unfold last_such. induction l as [|x l IH] using rev_ind; [intros x []|]. rewrite fold_left_app. cbn [fold_left].
  destruct (p x) eqn:E; [split; [apply in_app_iff; right; left; reflexivity|exact E]|].
  destruct (fold_left _ l None) as [y|].
  - destruct IH. split; [apply in_app_iff; left|]; assumption.
  - intros y Hy. apply in_app_iff in Hy. destruct Hy as [Hy|[<-|[]]]; [apply IH; exact Hy|exact E].
Qed.
Lemma Rgt0_true x : Rgt0 x = true <-> 0 < x.
Proof. unfold Rgt0. destruct (Rlt_dec 0 x); split; intros; try assumption; try reflexivity; try discriminate; contradiction. Qed.
Lemma Rgt0_false x : Rgt0 x = false <-> x <= 0.
Proof. unfold Rgt0. destruct (Rlt_dec 0 x); split; intros; try lra; try reflexivity; try discriminate. Qed.

Lemma edge_sign pos r v u k : proper_area pos r -> 0 < k -> directed_edge r v u \/ directed_edge r u v ->
  let d := dot (cross (vsub (row_mid pos r) (pos v)) (vscale k (vsub (pos u) (pos v)))) (row_normal pos r) in
  (directed_edge r v u -> d < 0) /\ (directed_edge r u v -> 0 < d).
Proof.
  intros Ha Hk _. destruct r as [|x [|y [|z [|]]]]; try contradiction. cbv zeta.
  set (N := cross (vsub (pos y) (pos x)) (vsub (pos z) (pos x))).
  assert (HN : norm N <> 0) by (intros E; apply Ha; unfold triangle_area; fold N; rewrite E; field).
  assert (P : 0 < norm N) by (pose proof (norm_nonneg N); lra).
  assert (NN : 0 < dot N N) by (rewrite <- norm_sq; nra).
  assert (M : row_normal pos [x; y; z] = vscale (/ norm N) N).
  { unfold row_normal, tri_corners. rewrite normal_scale, raw_normal_cross. reflexivity. }
  rewrite M. assert (Q : 0 < k * / norm N / 3) by (apply Rmult_lt_0_compat; [apply Rmult_lt_0_compat; [lra|apply Rinv_0_lt_compat; lra]|lra]).
  assert (Q2 : 0 < k * / norm N / 3 * dot N N) by (apply Rmult_lt_0_compat; assumption).
  assert (F : forall a b, (directed_edge [x; y; z] a b -> dot (cross (vsub (row_mid pos [x; y; z]) (pos a)) (vscale k (vsub (pos b) (pos a)))) (vscale (/ norm N) N) = - (k * / norm N / 3 * dot N N)) /\
                       (directed_edge [x; y; z] b a -> dot (cross (vsub (row_mid pos [x; y; z]) (pos a)) (vscale k (vsub (pos b) (pos a)))) (vscale (/ norm N) N) = k * / norm N / 3 * dot N N)).
  { intros a b. split; intros D; destruct D as [[-> ->]|[[-> ->]|[-> ->]]]; unfold row_mid, tri_corners; set (i := / norm N); clearbody i; unfold N, dot, cross, vsub, vscale; cbn [vx vy vz]; field. }
  destruct (F v u) as [F1 F2]. split; intros D; [rewrite (F1 D)|rewrite (F2 D)]; lra.
Qed.
Lemma normalize_scale a : normalize_3d a = vscale (/ norm a) a.
Proof. apply vec_eq; unfold normalize_3d; cbn; unfold Rdiv; ring. Qed.
Lemma unit_dot v a b : dot (normalize_3d (vsub a v)) (normalize_3d (vsub b v)) = cos_angle v a b.
Proof.
  rewrite !normalize_scale. unfold cos_angle, dist3, Rdiv. rewrite Rinv_mult. generalize (/ norm (vsub a v)) (/ norm (vsub b v)). intros p q.
  unfold dot, vscale. cbn [vx vy vz]. ring.
Qed.
Lemma vsub_zero a b : vsub a b = vzero -> a = b.
Proof. intros Z. apply vec_eq; apply Rminus_diag_uniq; [exact (f_equal vx Z)|exact (f_equal vy Z)|exact (f_equal vz Z)]. Qed.
Lemma cos_self v a : a <> v -> cos_angle v a a = 1.
Proof.
  intros H. unfold cos_angle. rewrite dist_sq. apply Rinv_r. intros E. rewrite <- dist_sq in E. assert (Z : dist3 a v = 0) by nra. apply norm_zero in Z.
  apply H. exact (vsub_zero _ _ Z).
Qed.
Lemma same_edge_true v a b : same_edge (normalize_3d (vsub a v)) (normalize_3d (vsub b v)) = true <-> Rabs (cos_angle v a b - 1) < 1 / 10 ^ 14.
Proof. unfold same_edge. rewrite unit_dot. destruct (Rlt_dec _ _); split; intros; try assumption; try reflexivity; try discriminate; contradiction. Qed.

Lemma others_in r i u : proper_triangle r -> (i < 3)%nat -> In u (others r i) <-> In u r /\ u <> nth i r 0%nat.
Proof. intros (x & y & z & -> & N1 & N2 & N3) Hi. destruct i as [|[|[|]]]; [cbn; intuition congruence..|lia]. Qed.
Lemma others_length r i : (i < 3)%nat -> length (others r i) = 2%nat.
Proof. intros Hi. destruct i as [|[|[|]]]; [reflexivity..|lia]. Qed.
Lemma edge_cases r v u : proper_triangle r -> In v r -> In u r -> v <> u -> (directed_edge r v u \/ directed_edge r u v) /\ ~ (directed_edge r v u /\ directed_edge r u v).
Proof. intros (x & y & z & -> & N1 & N2 & N3) Hv Hu N. cbn in *. intuition subst; intuition congruence. Qed.
Lemma directed_in r v u : proper_triangle r -> directed_edge r v u -> In v r /\ In u r /\ v <> u.
Proof. intros (x & y & z & -> & N1 & N2 & N3) H. cbn in *. intuition subst; auto. Qed.
(** With two common edges both are traversed in the same way. *)
Lemma edges_agree r s v u a b : proper_triangle r -> proper_triangle s -> directed_edge r v u -> directed_edge s v u -> directed_edge r a b -> ~ directed_edge s b a.
Proof. intros (x & y & z & -> & N1 & N2 & N3) (x' & y' & z' & -> & M1 & M2 & M3) H1 H2 H3 H4. cbn in *. intuition (subst; intuition congruence). Qed.
Lemma distinct_corners pos r a b : proper_area pos r -> In a r -> In b r -> a <> b -> pos a <> pos b.
Proof.
  intros Ha A B N E. destruct r as [|x [|y [|z [|]]]]; try contradiction. apply Ha. unfold triangle_area.
  assert (Z : cross (vsub (pos y) (pos x)) (vsub (pos z) (pos x)) = vzero).
  { cbn in A, B. intuition subst; try congruence; rewrite E || rewrite <- E; apply vec_eq; unfold cross, vsub, vzero; cbn; ring. }
  rewrite Z. rewrite (proj2 (norm_zero vzero) eq_refl). field.
Qed.
Lemma index_pairs_in n ij : In ij (index_pairs n) <-> (fst ij < n /\ snd ij < n)%nat.
Proof. destruct ij as [i j]. unfold index_pairs. rewrite in_prod_iff, !arange_In. cbn. reflexivity. Qed.

(** What the comparison finds. *)
Lemma compare_spec pos r s : proper_triangle r -> proper_triangle s -> proper_area pos r -> proper_area pos s -> edges_apart pos r s ->
  (triangle_orientation_is_equal pos r s = (-1)%Z /\ forall v u, In v r -> In u r -> In v s -> In u s -> v = u) \/
  exists v u, v <> u /\ In v r /\ In u r /\ In v s /\ In u s /\
    ((directed_edge r v u /\ directed_edge s u v \/ directed_edge r u v /\ directed_edge s v u) /\ triangle_orientation_is_equal pos r s = 1%Z \/
     (directed_edge r v u /\ directed_edge s v u \/ directed_edge r u v /\ directed_edge s u v) /\ triangle_orientation_is_equal pos r s = 0%Z).
Proof.
  intros Pr Ps Ar As Ap. unfold triangle_orientation_is_equal. unfold common_indices. pose proof (last_such_spec (fun ij => (nth (fst ij) r 0 =? nth (snd ij) s 0)%nat) (index_pairs 3)) as LS.
  assert (L : length r = 3%nat /\ length s = 3%nat) by (destruct Pr as (? & ? & ? & -> & _), Ps as (? & ? & ? & -> & _); split; reflexivity). destruct L as [Lr Ls].
  destruct (last_such _ (index_pairs 3)) as [[i j]|].
  2:{ left. split; [reflexivity|]. intros v u Vr _ Vs _. exfalso. apply (In_nth _ _ 0%nat) in Vr, Vs. destruct Vr as (a & La & Ea), Vs as (b & Lb & Eb).
      specialize (LS (a, b) (proj2 (index_pairs_in 3 (a, b)) ltac:(cbn; lia))). cbn [fst snd] in LS. rewrite Ea, Eb, Nat.eqb_refl in LS. discriminate. }
  destruct LS as [Hij E]. apply index_pairs_in in Hij. cbn [fst snd] in *. destruct Hij as [Hi Hj]. apply Nat.eqb_eq in E. set (v := nth i r 0%nat) in *.
  assert (Vr : In v r) by (apply nth_In; lia). assert (Vs : In v s) by (rewrite E; apply nth_In; lia).
  unfold common_edge. unfold unit_edges. fold v. set (F := fun u => normalize_3d (vsub (pos u) (pos v))).
  pose proof (last_such_spec (fun ij => same_edge (nth (fst ij) (map F (others r i)) vzero) (nth (snd ij) (map F (others s j)) vzero)) (index_pairs 2)) as LE.
  assert (Nth : forall t k a, (k < 3)%nat -> (a < 2)%nat -> nth a (map F (others t k)) vzero = F (nth a (others t k) 0%nat)).
  { intros t k a Hk Hq. rewrite (nth_indep _ vzero (F 0%nat)); [apply map_nth|]. rewrite map_length, others_length; assumption. }
  destruct (last_such _ (index_pairs 2)) as [[a b]|]; cbn [option_map fst].
  - destruct LE as [Hab S]. apply index_pairs_in in Hab. cbn [fst snd] in *. destruct Hab as [La Lb]. rewrite !Nth in * by assumption.
    set (u := nth a (others r i) 0%nat) in *. set (w := nth b (others s j) 0%nat) in *.
    assert (U : In u r /\ u <> v) by (apply others_in; [assumption..|apply nth_In; rewrite others_length; assumption]).
    assert (W : In w s /\ w <> v) by (rewrite E; apply others_in; [assumption..|apply nth_In; rewrite others_length; assumption]).
    assert (UW : u = w).
    { destruct (Nat.eq_dec u w) as [Q|Q]; [exact Q|exfalso]. unfold F in S. apply same_edge_true in S. specialize (Ap v u w Vr Vs (proj1 U) (proj1 W) (proj2 U) (proj2 W) Q).
      apply Rabs_def2 in S. lra. }
    assert (VU : v <> u) by (intros Q; apply (proj2 U); symmetry; exact Q). assert (Us : In u s) by (rewrite UW; apply W).
    right. exists v, u. split; [exact VU|]. split; [exact Vr|]. split; [apply U|]. split; [exact Vs|]. split; [exact Us|].
    destruct (edge_cases r v u Pr Vr (proj1 U) VU) as [Er Nr].
    destruct (edge_cases s v u Ps Vs Us VU) as [Es Ns].
    unfold F. rewrite normalize_scale. set (k := / norm (vsub (pos u) (pos v))).
    assert (Hk : 0 < k). { unfold k. apply Rinv_0_lt_compat. pose proof (norm_nonneg (vsub (pos u) (pos v))). assert (norm (vsub (pos u) (pos v)) <> 0); [|lra].
      intros Z. apply norm_zero in Z. apply (distinct_corners pos r u v Ar (proj1 U) Vr (proj2 U)). exact (vsub_zero _ _ Z). }
    destruct (edge_sign pos r v u k Ar Hk Er) as [R1 R2]. destruct (edge_sign pos s v u k As Hk Es) as [S1 S2].
    set (d1 := dot (cross (vsub (row_mid pos r) (pos v)) _) _) in *.
    replace (dot (cross (vscale k (vsub (pos u) (pos v))) (vsub (row_mid pos s) (pos v))) (row_normal pos s))
      with (- dot (cross (vsub (row_mid pos s) (pos v)) (vscale k (vsub (pos u) (pos v)))) (row_normal pos s)) by (unfold dot, cross; cbn [vx vy vz]; ring).
    set (d2 := dot (cross (vsub (row_mid pos s) (pos v)) _) _) in *. clearbody d1 d2.
    destruct Er as [Er|Er], Es as [Es|Es].
    + right. split; [left; split; assumption|]. specialize (R1 Er). specialize (S1 Es). rewrite (proj2 (Rgt0_false d1)) by lra. rewrite (proj2 (Rgt0_true (- d2))) by lra. reflexivity.
    + left. split; [left; split; assumption|]. specialize (R1 Er). specialize (S2 Es). rewrite (proj2 (Rgt0_false d1)) by lra. rewrite (proj2 (Rgt0_false (- d2))) by lra. reflexivity.
    + left. split; [right; split; assumption|]. specialize (R2 Er). specialize (S1 Es). rewrite (proj2 (Rgt0_true d1)) by lra. rewrite (proj2 (Rgt0_true (- d2))) by lra. reflexivity.
    + right. split; [right; split; assumption|]. specialize (R2 Er). specialize (S2 Es). rewrite (proj2 (Rgt0_true d1)) by lra. rewrite (proj2 (Rgt0_false (- d2))) by lra. reflexivity.
  - left. split; [reflexivity|].
    assert (G : forall u, In u r -> In u s -> u = v).
    { intros u Ur Us. destruct (Nat.eq_dec u v) as [Q|Q]; [exact Q|exfalso].
      assert (O1 : In u (others r i)) by (apply others_in; auto). assert (O2 : In u (others s j)) by (apply others_in; auto; split; [exact Us|congruence]).
      apply (In_nth _ _ 0%nat) in O1, O2. destruct O1 as (a & La & Ea), O2 as (b & Lb & Eb). rewrite others_length in La, Lb by assumption.
      specialize (LE (a, b) (proj2 (index_pairs_in 2 (a, b)) ltac:(cbn; lia))). cbn [fst snd] in LE. rewrite !Nth, Ea, Eb in LE by assumption.
      assert (T : same_edge (F u) (F u) = true); [|congruence]. unfold F. apply same_edge_true.
      rewrite cos_self by (apply (distinct_corners pos r); assumption). rewrite Rminus_eq_0, Rabs_R0. lra. }
    intros p q Pq Qr Qs Qq. rewrite (G p), (G q); auto.
Qed.

(** ** C68 The comparison of neighbouring triangles *)
(** For triangles with three different vertices and non-zero area whose edges are apart, the code reports -1 when the
    triangles have no edge in common, 1 when a common edge is traversed in opposite directions (normals on the same side)
    and 0 when it is traversed in the same direction. *)
Theorem C68_comparison pos r s :
  proper_triangle r -> proper_triangle s -> proper_area pos r -> proper_area pos s -> edges_apart pos r s ->
  ((forall a b, directed_edge r a b -> ~ directed_edge s a b /\ ~ directed_edge s b a) -> triangle_orientation_is_equal pos r s = (-1)%Z) /\
  (forall a b, directed_edge r a b -> directed_edge s b a -> triangle_orientation_is_equal pos r s = 1%Z) /\
  (forall a b, directed_edge r a b -> directed_edge s a b -> triangle_orientation_is_equal pos r s = 0%Z).
Proof.
  intros Pr Ps Ar As Ap. destruct (compare_spec pos r s Pr Ps Ar As Ap) as [[E N]|(v & u & Nvu & Vr & Ur & Vs & Us & C)].
  - split; [intros _; exact E|]. split; intros a b Da Db; exfalso; apply directed_in in Da, Db; auto; destruct Da as (A1 & A2 & A3), Db as (B1 & B2 & B3); auto.
  - split; [|split].
    + intros H. exfalso. destruct C as [[[[D1 D2]|[D1 D2]] _]|[[[D1 D2]|[D1 D2]] _]]; apply H in D1; tauto.
    + intros a b Da Db. destruct C as [[_ C]|[C _]]; [exact C|exfalso]. destruct C as [[D1 D2]|[D1 D2]]; exact (edges_agree r s _ _ a b Pr Ps D1 D2 Da Db).
    + intros a b Da Db. destruct C as [[C _]|[_ C]]; [exfalso|exact C]. destruct C as [[D1 D2]|[D1 D2]]; exact (edges_agree r s a b _ _ Pr Ps Da Db D1 D2).
Qed.
Print Assumptions C68_comparison.

Lemma reversed_proper r : proper_triangle r -> proper_triangle (reversed_triangle r).
Proof. intros (x & y & z & -> & N1 & N2 & N3). exists x, z, y. repeat split; auto. Qed.
Lemma reversed_area pos r : proper_area pos r -> proper_area pos (reversed_triangle r).
Proof. destruct r as [|x [|y [|z [|]]]]; try contradiction. cbn. rewrite triangle_area_swap. auto. Qed.
Lemma reversed_in r v : In v (reversed_triangle r) <-> In v r.
Proof. destruct r as [|x [|y [|z [|]]]]; cbn; tauto. Qed.
Lemma comparison_geometry o pts pos els : (forall r s, o_tri_equal o pts r s = triangle_orientation_is_equal pos r s) ->
  Forall proper_triangle els -> (forall r, In r els -> proper_area pos r) -> (forall r s, In r els -> In s els -> edges_apart pos r s) -> comparison_ok o pts els.
Proof.
  intros Ho Hp Ha He r s r' s' Ir Is Hr Hs. unfold compares_edges. rewrite Forall_forall in Hp. setoid_rewrite Ho.
  apply C68_comparison.
  - destruct Hr as [-> | ->]; [|apply reversed_proper]; auto.
  - destruct Hs as [-> | ->]; [|apply reversed_proper]; auto.
  - destruct Hr as [-> | ->]; [|apply reversed_area]; auto.
  - destruct Hs as [-> | ->]; [|apply reversed_area]; auto.
  - assert (Q : forall t t' v, t' = t \/ t' = reversed_triangle t -> In v t' -> In v t) by (intros t t' v [-> | ->]; [auto|apply reversed_in]).
    intros v a b V1 V2 A B. apply (He r s Ir Is); eauto.
Qed.
(** With the actual comparison the triangles of a connected orientable surface end up oriented consistently (C10), and
    those of a closed surface outward (C11): no assumption on the comparison remains. *)
Theorem C68_orientation o pts pos els :
  (forall r s, o_tri_equal o pts r s = triangle_orientation_is_equal pos r s) ->
  Forall proper_triangle els -> (forall r, In r els -> proper_area pos r) -> (forall r s, In r els -> In s els -> edges_apart pos r s) ->
  (exists ref, Forall2 (fun r r' => r' = r \/ r' = reversed_triangle r) els ref /\ opposite_edges ref) ->
  (forall i, (i < length els)%nat -> edge_connected els 0 i) ->
  exists els', reorient_triangles o pts els = Ok els' /\
    Forall2 (fun r r' => r' = r \/ r' = reversed_triangle r) els els' /\ opposite_edges els'.
Proof.
  intros Ho Hp Ha He Hr Hc. apply C10_triangles_oppose_along_edges; auto; [|apply (comparison_geometry o pts pos); assumption].
  apply Forall_forall. intros r Ir. rewrite Forall_forall in Hp. destruct (Hp r Ir) as (x & y & z & -> & _). reflexivity.
Qed.
Print Assumptions C68_orientation.
Theorem C68_outward o pts pos outwards (els els' : list row) :
  (forall r s, o_tri_equal o pts r s = triangle_orientation_is_equal pos r s) ->
  (forall l, o_tri_outwards o pts l = triangle_outwards pos l) ->
  Forall proper_triangle els -> (forall r, In r els -> proper_area pos r) -> (forall r s, In r els -> In s els -> edges_apart pos r s) ->
  (exists ref, Forall2 tri_sf els ref /\ opposite_edges ref) ->
  (forall i, (i < length els)%nat -> edge_connected els 0 i) -> every_edge_shared els ->
  ensure_triangle_orientation o pts outwards els = Ok els' ->
  closed_surface els' /\ opposite_edges els' /\
  (signed_volume pos els' <> 0 -> if outwards then 0 < signed_volume pos els' else signed_volume pos els' < 0).
Proof. intros Ho Hv Hp Ha He Hr Hc Hs. apply C11_triangle_orientation; auto. apply (comparison_geometry o pts pos); assumption. Qed.
Print Assumptions C68_outward.

(** The tetrahedron of C10, at (0,0,0), (1,0,0), (0,1,0), (0,0,1). *)
Definition ex_tetra_pos (i : nat) : vec3 := match i with 1%nat => ex | 2%nat => ey | 3%nat => ez | _ => vzero end.
Lemma cos_le v a b : 0 < dot (vsub a v) (vsub a v) -> 0 < dot (vsub b v) (vsub b v) ->
  dot (vsub a v) (vsub b v) * dot (vsub a v) (vsub b v) <= 81 / 100 * (dot (vsub a v) (vsub a v) * dot (vsub b v) (vsub b v)) -> cos_angle v a b <= 1 - 1 / 10 ^ 14.
Proof.
  intros A B H. unfold cos_angle. rewrite <- !dist_sq in *. pose proof (norm_nonneg (vsub a v)) as Na. pose proof (norm_nonneg (vsub b v)) as Nb. fold (dist3 a v) in Na. fold (dist3 b v) in Nb.
  set (p := dist3 a v) in *. set (q := dist3 b v) in *. set (d := dot _ _) in *. clearbody p q d.
  assert (P : 0 < p) by nra. assert (Q : 0 < q) by nra. assert (PQ : 0 < p * q) by nra.
  apply (Rmult_le_reg_r (p * q)); [exact PQ|]. unfold Rdiv. rewrite Rmult_assoc, Rinv_l, Rmult_1_r by lra.
  assert (d <= 9 / 10 * (p * q)); [|lra]. destruct (Rle_dec d 0); [lra|]. apply Rnot_lt_le. intros L. nra.
Qed.
Example C68_nonvacuous : Forall proper_triangle ex_tetra /\ (forall r, In r ex_tetra -> proper_area ex_tetra_pos r) /\
  (forall r s, In r ex_tetra -> In s ex_tetra -> edges_apart ex_tetra_pos r s) /\
  (exists ref, Forall2 (fun r r' => r' = r \/ r' = reversed_triangle r) ex_tetra ref /\ opposite_edges ref) /\
  (forall i, (i < length ex_tetra)%nat -> edge_connected ex_tetra 0 i).
Proof.
  split; [|split; [|split; [|exact (conj (proj1 (proj2 (proj2 C10_nonvacuous))) (proj1 (proj2 (proj2 (proj2 C10_nonvacuous)))))]]].
  - repeat constructor; do 3 eexists; repeat split; discriminate.
  - assert (G : forall a b c, dot (cross (vsub b a) (vsub c a)) (cross (vsub b a) (vsub c a)) <> 0 -> triangle_area a b c <> 0).
    { intros a b c H E. apply H. unfold triangle_area in E. rewrite <- norm_sq. assert (Z : norm (cross (vsub b a) (vsub c a)) = 0) by lra. rewrite Z. ring. }
    intros r [<-|[<-|[<-|[<-|[]]]]]; cbn; apply G; unfold dot, cross, vsub; cbn; lra.
  - assert (B : forall v a b, (v < 4)%nat -> (a < 4)%nat -> (b < 4)%nat -> a <> v -> b <> v -> a <> b -> cos_angle (ex_tetra_pos v) (ex_tetra_pos a) (ex_tetra_pos b) <= 1 - 1 / 10 ^ 14).
    { intros v a b Hv Ha Hb N1 N2 N3. do 4 (destruct v as [|v]; [do 4 (destruct a as [|a]; [do 4 (destruct b as [|b]; [first [exfalso; congruence|apply cos_le; unfold dot, vsub; cbn; lra]|]); exfalso; lia|]); exfalso; lia|]); exfalso; lia. }
    assert (L : forall r v, In r ex_tetra -> In v r -> (v < 4)%nat) by (intros r v [<-|[<-|[<-|[<-|[]]]]]; cbn; lia).
    intros r s Hr Hs v a b V1 V2 Ia Ib. apply B; eauto.
Qed.
(** Overlapping edges of different length count as common: the condition on the edges cannot be dropped. *)
Definition ex_overlap_pos (i : nat) : vec3 := match i with 1%nat => V3 2 0 0 | 2%nat => V3 0 1 0 | 3%nat => V3 1 0 0 | 4%nat => V3 0 (-1) 0 | _ => vzero end.
Example C68_apart_needed : (forall a b, directed_edge [0; 1; 2]%nat a b -> ~ directed_edge [0; 3; 4]%nat a b /\ ~ directed_edge [0; 3; 4]%nat b a) /\
  triangle_orientation_is_equal ex_overlap_pos [0; 1; 2]%nat [0; 3; 4]%nat = 0%Z.
Proof.
  split; [cbn; lia|]. unfold triangle_orientation_is_equal. change (common_indices [0; 1; 2]%nat [0; 3; 4]%nat) with (Some (0, 0)%nat).
  cbn [nth]. unfold common_edge. set (E1 := unit_edges _ _ _). set (E2 := map _ _).
  assert (U : forall v n, 0 < n -> dot v v = n * n -> normalize_3d v = vscale (/ n) v) by (intros v n Hn H; rewrite normalize_scale, (norm_unique v n); [reflexivity|lra|exact H]).
  assert (Q1 : E1 = [V3 1 0 0; V3 0 1 0]).
  { unfold E1, unit_edges. cbn [others map filter arange seq Nat.eqb negb nth ex_overlap_pos]. rewrite (U _ 2), (U _ 1) by (try lra; unfold dot, vsub, vzero; cbn; ring).
    repeat f_equal; apply vec_eq; unfold vscale, vsub, vzero; cbn; field. }
  assert (Q2 : E2 = [V3 1 0 0; V3 0 (-1) 0]).
  { unfold E2. cbn [others map filter arange seq Nat.eqb negb nth ex_overlap_pos]. rewrite !(U _ 1) by (try lra; unfold dot, vsub, vzero; cbn; ring).
    repeat f_equal; apply vec_eq; unfold vscale, vsub, vzero; cbn; field. }
  rewrite Q1, Q2. clear E1 E2 Q1 Q2 U.
  assert (T : same_edge (V3 1 0 0) (V3 1 0 0) = true /\ same_edge (V3 1 0 0) (V3 0 (-1) 0) = false /\ same_edge (V3 0 1 0) (V3 1 0 0) = false /\ same_edge (V3 0 1 0) (V3 0 (-1) 0) = false).
  { unfold same_edge, dot. cbn [vx vy vz]. repeat split; destruct (Rlt_dec _ _) as [l|n]; try reflexivity; exfalso.
    - apply n. rewrite Rabs_pos_eq; lra.
    - rewrite Rabs_left in l; lra.
    - rewrite Rabs_left in l; lra.
    - rewrite Rabs_left in l; lra. }
  destruct T as (T1 & T2 & T3 & T4). unfold last_such. cbn [index_pairs arange seq list_prod map app fold_left fst snd nth]. rewrite T1, T2, T3, T4. cbn [option_map fst nth].
  assert (N1 : row_normal ex_overlap_pos [0; 1; 2]%nat = V3 0 0 1).
  { unfold row_normal. cbn. rewrite normal_scale, raw_normal_cross. rewrite (norm_unique _ 2); [|lra|unfold dot, cross, vsub; cbn; ring]. apply vec_eq; unfold cross, vsub; cbn; field. }
  assert (N2 : row_normal ex_overlap_pos [0; 3; 4]%nat = V3 0 0 (-1)).
  { unfold row_normal. cbn. rewrite normal_scale, raw_normal_cross. rewrite (norm_unique _ 1); [|lra|unfold dot, cross, vsub; cbn; ring]. apply vec_eq; unfold cross, vsub; cbn; field. }
  rewrite N1, N2. match goal with |- (if Bool.eqb (Rgt0 ?a) (Rgt0 ?b) then _ else _) = _ => rewrite (proj2 (Rgt0_false a)), (proj2 (Rgt0_true b)); [reflexivity|..] end;
    unfold dot, cross, row_mid, tri_corners, vsub; cbn; lra.
Qed.
