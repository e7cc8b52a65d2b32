(** Facts about the rows of the matrix: which condition an element gets and which equation its row is. *)
From Coq Require Import Reals Lra Sorted.
From Verif Require Import Base BaseFacts Float64 OrientModel MeshModel MeshSpec MeshFacts MeshOps Vec GeomModel QuadModel OutwardFacts
  ExcitationModel ExcitationFacts FieldModel FieldFacts TriangleModel SolverModel Props_Excitation SolverFacts MatrixModel MatrixSpec MatrixSpecFacts.
Local Open Scope R_scope.

(** ** The label of an element *)
Lemma np_put_const {A} (x : A) idx : forall ls ls' k, np_put ls idx (map (fun _ => x) idx) = Ok ls' -> In k idx -> nth_error ls' k = Some x.
Proof.
  induction idx as [|i idx IH]; intros ls ls' k H Hk; [destruct Hk|]. cbn [map np_put] in H. apply bind_ok in H. destruct H as (l1 & H1 & H).
  destruct (in_dec Nat.eq_dec k idx) as [I|N]; [exact (IH _ _ _ H I)|]. destruct Hk as [->|Hk]; [|contradiction].
  rewrite (np_put_other _ _ _ _ _ H N). apply np_set_ok in H1. destruct H1 as [L ->]. apply nth_error_upd_eq. exact L.
Qed.
Lemma element_labels_get n0 k names : forall ls ls', element_labels names ls = Ok ls' ->
  (forall n ks, In (n, ks) names -> In k ks -> n = n0) ->
  (exists ks, In (n0, ks) names /\ In k ks) \/ nth_error ls k = Some (Some n0) -> nth_error ls' k = Some (Some n0).
Proof.
  induction names as [|[n idx] names IH]; intros ls ls' H U C; cbn [element_labels] in H.
  - injection H as <-. destruct C as [(ks & [] & _)|C]. exact C.
  - apply bind_ok in H. destruct H as (l1 & H1 & H). apply (IH _ _ H); [intros m ks Hm; apply U; right; exact Hm|].
    destruct (in_dec Nat.eq_dec k idx) as [I|N].
    + right. rewrite (np_put_const _ _ _ _ _ H1 I). f_equal. f_equal. apply (U n idx); [left; reflexivity|exact I].
    + rewrite (np_put_other _ _ _ _ _ H1 N). destruct C as [(ks & [E|Hin] & Hk)|C]; [injection E as -> ->; contradiction|left; eauto|right; exact C].
Qed.
Lemma sorted_NoDup l : StronglySorted lt l -> NoDup l.
Proof.
  induction 1 as [|a l S IH F]; constructor; [|exact IH]. intros I. rewrite Forall_forall in F. specialize (F a I). lia.
Qed.
Lemma Forall2_in_l {A B} (P : A -> B -> Prop) l m a : Forall2 P l m -> In a l -> exists b, In b m /\ P a b.
Proof. induction 1 as [|x y l m H F IH]; intros I; [destruct I|]. destruct I as [->|I]; [exists y; simpl; auto|]. destruct (IH I) as (b & Hb & Hp). exists b; simpl; auto. Qed.
Lemma Forall2_in_r {A B} (P : A -> B -> Prop) l m b : Forall2 P l m -> In b m -> exists a, In a l /\ P a b.
Proof. induction 1 as [|x y l m H F IH]; intros I; [destruct I|]. destruct I as [->|I]; [exists x; simpl; auto|]. destruct (IH I) as (a & Ha & Hp). exists a; simpl; auto. Qed.
Lemma dget_in_NoDup {A} (d : list (string * A)) n v : NoDup (dkeys d) -> In (n, v) d -> dget d n = Some v.
Proof.
  induction d as [|[k w] d IH]; intros ND I; [destruct I|]. cbn [dget]. cbn in ND. apply NoDup_cons_iff in ND. destruct ND as [N ND].
  destruct (String.eqb_spec k n) as [->|Nk].
  - destruct I as [E|I]; [injection E as <-; reflexivity|]. exfalso. apply N. change n with (fst (n, v)). apply in_map. exact I.
  - destruct I as [E|I]; [injection E as -> _; contradiction|]. apply IH; assumption.
Qed.
Lemma filter_keys_NoDup {A} (p : string * A -> bool) d : NoDup (dkeys d) -> NoDup (dkeys (filter p d)).
Proof.
  induction d as [|x d IH]; intros ND; [constructor|]. cbn in ND. apply NoDup_cons_iff in ND. destruct ND as [N ND]. cbn [filter].
  destruct (p x); [|apply IH; exact ND]. cbn. constructor; [|apply IH; exact ND]. intros I. apply N. unfold dkeys in *. apply in_map_iff in I.
  destruct I as (y & E & I). apply filter_In in I. apply in_map_iff. exists y. tauto.
Qed.

Lemma solver_elements nu check kind e s : (forall c, check c = true <-> kind c) -> NoDup (dkeys (groups_of e)) ->
  new_solver nu (active_elements check) e = Ok s ->
  s_exc s = e /\ length (s_elements s) = length (s_vertices s) /\
  exists act, active_list kind e act /\ Forall2 (vertices_of e) act (s_vertices s) /\
    forall k i c v, nth_error act k = Some i -> governed kind e i c -> nth_error (s_vertices s) k = Some v ->
      nth_error (s_elements s) k = Some (Some (c, element_value nu v c)).
Proof.
  intros Hk ND Hs. destruct (new_solver_ok _ _ _ _ Hs) as (names & ls & A1 & A2 & A3 & A4 & A5 & A6 & _).
  destruct (active_selects _ kind _ _ _ Hk A1) as (act & S1 & S2 & S3 & S4 & S5).
  assert (NDn : NoDup (dkeys names)).
  { clear - A1 ND. unfold active_elements in A1. unfold groups_of in ND.
    destruct (e_symmetry e); apply bind_ok in A1; destruct A1 as (fl & _ & A1); apply bind_ok in A1; destruct A1 as (nm & Hn & A1);
      apply bind_ok in A1; destruct A1 as (v & _ & A1); injection A1 as _ ->; apply mapM_dict_keys in Hn; rewrite Hn; apply filter_keys_NoDup; exact ND. }
  split; [exact A5|]. split; [rewrite A4, map2_length, A3; apply Nat.min_id|]. exists act. split; [split; [exact S1|exact S2]|]. split; [exact S3|].
  intros k i c v Ka (n & idx & G1 & G2 & G3 & G4 & G5) Kv.
  assert (L : nth_error ls k = Some (Some n)).
  { apply (element_labels_get n k _ _ _ A2).
    - intros n' ks' In' Ik. pose proof (dget_in_NoDup _ _ _ NDn In') as D. destruct (S5 _ _ D) as (idx' & D1 & D2).
      destruct (proj1 (S4 n') (ex_intro _ _ D)) as (_ & c' & D3 & D4).
      destruct (Forall2_in_r _ _ _ _ D2 Ik) as (i' & I1 & I2). rewrite Ka in I2. injection I2 as <-. exact (G5 n' c' idx' D3 D4 D1 I1).
    - left. destruct (proj2 (S4 n)) as (ks & D); [split; eauto|]. exists ks. split; [apply dget_In; exact D|].
      destruct (S5 _ _ D) as (idx' & D1 & D2). rewrite G3 in D1. injection D1 as <-. destruct (Forall2_in_l _ _ _ _ D2 G4) as (k' & K1 & K2).
      rewrite (proj1 (NoDup_nth_error act) (sorted_NoDup _ S1) k k'); [exact K1|eapply nth_error_lt; exact Ka|congruence]. }
  rewrite A4. rewrite (map2_nth _ _ _ _ _ _ Kv L). unfold labelled. rewrite G1. reflexivity.
Qed.

(** ** The equation of a row *)
Lemma solution_rows nu s to_field rhs f : linear_solver (nu_solve nu) -> length (s_elements s) = length (s_vertices s) ->
  solve_matrix nu s to_field [rhs] = Ok [f] ->
  exists x, length x = length (s_vertices s) /\ to_field (mkcharges (mesh_rule (e_mesh (s_exc s))) (combine x (sources nu s))) = Ok f /\
    forall k el, nth_error (s_elements s) k = Some el ->
      Rsum (map (fun j => matrix_entry nu s k j el * nth j x 0) (arange (length (s_vertices s)))) = nth k rhs 0.
Proof.
  intros Hl Len H. apply solve_matrix_ok in H. destruct H as (xs & H1 & H2). inversion H2 as [|x g xs' fs' Hx H2' E1 E2]; subst. inversion H2'; subst.
  exists x. inversion H1 as [|r x' rs xs'' Hr H1' E1 E2]; subst. destruct Hr as [[Ev ->]|Hr].
  - rewrite Ev in *. split; [reflexivity|]. split; [exact Hx|]. intros k el Hk. destruct (s_elements s); [destruct k; discriminate|discriminate].
  - destruct (Hl _ _ _ Hr) as [[L M] _].
    assert (Lm : length (get_matrix nu s) = length (s_vertices s)) by (unfold get_matrix; rewrite map2_length, arange_length, Len; apply Nat.min_id).
    rewrite Lm in L. split; [exact L|]. split; [exact Hx|]. intros k el Hk.
    assert (Kl : (k < length (s_elements s))%nat) by (eapply nth_error_lt; exact Hk).
    rewrite <- M. unfold matvec. rewrite (nth_map' _ _ _ []) by (rewrite Lm, <- Len; exact Kl).
    unfold get_matrix. rewrite (nth_map2 _ _ _ _ 0%nat None) by (rewrite ?arange_length; auto).
    rewrite (nth_error_nth _ _ None Hk). replace (nth k (arange (length (s_elements s))) 0%nat) with k by (symmetry; apply nth_error_nth; apply arange_nth; exact Kl).
    unfold dotp. clear - L. rewrite <- L. clear L. unfold arange.
    assert (X : forall o, Rsum (map (fun j => matrix_entry nu s k j el * nth (j - o) x 0) (seq o (length x))) = Rsum (map2 Rmult (map (fun j => matrix_entry nu s k j el) (seq o (length x))) x)).
    { induction x as [|a x IH]; intros o; [reflexivity|]. cbn [length seq map map2].
      replace (o - o)%nat with 0%nat by lia. cbn [nth]. cbn [Rsum]. rewrite <- (IH (S o)).
      match goal with |- _ + Rsum ?l = _ + Rsum ?m => replace l with m; [reflexivity|] end. apply map_ext_in. intros j Hj. apply in_seq in Hj.
      replace (j - o)%nat with (S (j - S o)) by lia. reflexivity. }
    rewrite <- (X 0%nat). apply Rsum_ext. intros j _. rewrite Nat.sub_0_r. reflexivity.
Qed.
Lemma evaluate_indexed {T} K ru (S : T -> source) x ts d : length x = length ts ->
  evaluate K (mkcharges ru (combine x (map S ts))) = Rsum (map (fun j => source_sum K (S (nth j ts d)) * nth j x 0) (arange (length ts))).
Proof.
  intros L. unfold evaluate. cbn [q_items]. unfold arange.
  assert (X : forall o, Rsum (map (fun j => source_sum K (S (nth (j - o) ts d)) * nth (j - o) x 0) (seq o (length ts))) = Rsum (map (fun y => fst y * source_sum K (snd y)) (combine x (map S ts)))).
  { revert ts L. induction x as [|a x IH]; intros [|t ts] L o; try discriminate; [reflexivity|]. cbn [length seq map combine].
    replace (o - o)%nat with 0%nat by lia. cbn [nth]. cbn [Rsum fst snd]. rewrite (Rmult_comm (source_sum K (S t))). rewrite <- (IH ts ltac:(simpl in L; lia) (Datatypes.S o)).
    match goal with |- _ + Rsum ?l = _ + Rsum ?m => replace l with m; [reflexivity|] end. apply map_ext_in.
    intros j Hj. apply in_seq in Hj. replace (j - o)%nat with (Datatypes.S (j - Datatypes.S o)) by lia. reflexivity. }
  rewrite <- (X 0%nat). apply Rsum_ext. intros j _. rewrite Nat.sub_0_r. reflexivity.
Qed.
Lemma Rsum_minus {A} (f g : A -> R) l : Rsum (map f l) - Rsum (map g l) = Rsum (map (fun x => f x - g x) l).
Proof. induction l as [|a l IH]; simpl; lra. Qed.
Lemma Rsum_single (f : nat -> R) n k : (k < n)%nat -> (forall j, (j < n)%nat -> j <> k -> f j = 0) -> Rsum (map f (arange n)) = f k.
Proof.
  intros L H. unfold arange. assert (X : forall o m, (o <= k < o + m)%nat -> (forall j, (o <= j < o + m)%nat -> j <> k -> f j = 0) -> Rsum (map f (seq o m)) = f k).
  { intros o m. revert o. induction m as [|m IH]; intros o Ho Hz; [lia|]. cbn [seq map]. cbn [Rsum]. destruct (Nat.eq_dec o k) as [->|N].
    - assert (Z : forall p q, (k < p)%nat -> (p + q <= k + Datatypes.S m)%nat -> Rsum (map f (seq p q)) = 0).
      { intros p q. revert p. induction q as [|q IHq]; intros p Hp Hq; [reflexivity|]. cbn [seq map Rsum]. rewrite Hz, IHq by lia. lra. }
      rewrite Z by lia. lra.
    - rewrite (Hz o), IH by (try lia; intros; apply Hz; lia). lra. }
  apply X; [lia|]. intros j Hj. apply H. lia.
Qed.

(** ** Rows of curved lines *)
Lemma norm_2d_axis r : 0 <= r -> norm_2d r 0 = r.
Proof. intros H. unfold norm_2d. replace (r * r + 0 * 0) with (r * r) by ring. apply sqrt_square. exact H. Qed.
Lemma field_radial_component r z n cs : 0 <= r ->
  fst n * vx (field_radial (V3 r 0 z) cs) + snd n * vz (field_radial (V3 r 0 z) cs) =
  evaluate (fun q => fst n * - dr1_potential_radial_ring r z (vx q) (vz q) + snd n * - dz1_potential_radial_ring r z (vx q) (vz q)) cs.
Proof.
  intros H. unfold field_radial, from_cylinder. cbn [vx vy vz]. rewrite norm_2d_axis by exact H.
  assert (E : evaluate (fun q => fst n * - dr1_potential_radial_ring r z (vx q) (vz q) + snd n * - dz1_potential_radial_ring r z (vx q) (vz q)) cs =
    fst n * - evaluate (fun q => dr1_potential_radial_ring r z (vx q) (vz q)) cs + snd n * - evaluate (fun q => dz1_potential_radial_ring r z (vx q) (vz q)) cs).
  { unfold evaluate, source_sum. induction (q_items cs) as [|[q s] l IH]; cbn [map Rsum fst snd]; [ring|]. rewrite IH.
    assert (E : forall s : source, Rsum (map (fun jp => fst jp * (fst n * - dr1_potential_radial_ring r z (vx (snd jp)) (vz (snd jp)) + snd n * - dz1_potential_radial_ring r z (vx (snd jp)) (vz (snd jp)))) s) =
      - fst n * Rsum (map (fun jp => fst jp * dr1_potential_radial_ring r z (vx (snd jp)) (vz (snd jp))) s) - snd n * Rsum (map (fun jp => fst jp * dz1_potential_radial_ring r z (vx (snd jp)) (vz (snd jp))) s)).
    { clear. induction s as [|[j p] s IH]; cbn [map Rsum fst snd]; [ring|]. rewrite IH. ring. }
    rewrite E. ring. }
  rewrite E. destruct (Rle_dec MIN_DISTANCE_AXIS r) as [L|L]; cbn [vx vz].
  - unfold MIN_DISTANCE_AXIS in L. field. lra.
  - assert (Z : evaluate (fun q => dr1_potential_radial_ring r z (vx q) (vz q)) cs = 0); [|rewrite Z; ring].
    unfold evaluate, source_sum. induction (q_items cs) as [|[q s] l IH]; cbn [map Rsum fst snd]; [reflexivity|]. rewrite IH by (cbn [q_items]; auto).
    assert (E0 : forall s : source, Rsum (map (fun jp => fst jp * dr1_potential_radial_ring r z (vx (snd jp)) (vz (snd jp))) s) = 0).
    { clear - L. induction s as [|[j p] s IH]; cbn [map Rsum fst snd]; [reflexivity|]. rewrite IH. unfold dr1_potential_radial_ring.
      destruct (Rlt_dec r MIN_DISTANCE_AXIS); [ring|lra]. }
    rewrite E0. ring.
Qed.

Lemma Forall2_nth_d {A B} (P : A -> B -> Prop) l m a b : Forall2 P l m -> forall j, (j < length m)%nat -> P (nth j l a) (nth j m b).
Proof. induction 1 as [|x y l m H F IH]; intros j L; [inversion L|]. destruct j as [|j]; [exact H|]. simpl in L. apply IH. lia. Qed.
Section RadialRows.
  Variables (A : analysis) (e : excitation) (s : solver) (kind : condition -> Prop) (ts : list line4) (x : list R) (rhs : list R).
  Hypothesis Hv : Forall2 (fun v l => map (an_pos A) v = line_points l) (s_vertices s) ts.
  Hypothesis Lx : length x = length ts.
  Let nu := backend_numerics A.
  Let cs := mkcharges LINE_RULE (combine x (map line_charge ts)).
  Hypothesis Rows : forall k el, nth_error (s_elements s) k = Some el ->
    Rsum (map (fun j => matrix_entry nu s k j el * nth j x 0) (arange (length (s_vertices s)))) = nth k rhs 0.

  Lemma vertices_line j d : (j < length ts)%nat -> map (an_pos A) (nth j (s_vertices s) []) = line_points (nth j ts d).
  Proof using Hv.
    intros L. exact (Forall2_nth_d _ _ _ [] d Hv j L).
  Qed.
  Lemma entry_lines (radial : bool -> vec3 -> vec3 -> vec3 -> vec3 -> vec3 -> vec3 -> vec3 -> vec3 -> R) three k j d : (k < length ts)%nat -> (j < length ts)%nat ->
    entry A radial three (s_vertices s) k j =
    (let '(p0, p1, p2, p3) := nth k ts d in let '(q0, q1, q2, q3) := nth j ts d in radial (k =? j)%nat p0 p1 p2 p3 q0 q1 q2 q3).
  Proof using Hv.
    intros Lk Lj. unfold entry, with_rows at 1. rewrite (vertices_line k d Lk). destruct (nth k ts d) as [[[p0 p1] p2] p3]. cbn [line_points].
    unfold with_rows. rewrite (vertices_line j d Lj). destruct (nth j ts d) as [[[q0 q1] q2] q3]. reflexivity.
  Qed.
  Lemma len_vs : length (s_vertices s) = length ts.
  Proof using Hv. exact (Forall2_length _ _ _ Hv). Qed.

  Lemma potential_row_line k c v l : nth_error (s_elements s) k = Some (Some (c, v)) -> nth_error ts k = Some l -> 0 <= fst (lcenter l) ->
    (exists V, c = VOLTAGE_FIXED V) \/ (exists g, c = VOLTAGE_FUN g) \/ (exists V, c = MAGNETOSTATIC_POT V) ->
    potential_radial (lpoint l) cs = nth k rhs 0 + nth k x 0 * (lrule_potential l - lself_potential A l).
  Proof using Hv Lx Rows.
    intros Hk Hl R0 Hc. rewrite <- (Rows _ _ Hk). rewrite len_vs.
    assert (Lk : (k < length ts)%nat) by (eapply nth_error_lt; exact Hl). assert (El : nth k ts l = l) by (apply nth_error_nth; exact Hl).
    unfold potential_radial, cs, lpoint. cbn [vx vy vz]. rewrite norm_2d_axis by exact R0. rewrite (evaluate_indexed _ _ _ _ ts l Lx).
    match goal with |- ?a = ?b + ?c => cut (a - b = c); [lra|] end. rewrite Rsum_minus.
    assert (Ent : forall j, (j < length ts)%nat -> matrix_entry nu s k j (Some (c, v)) =
      if (k =? j)%nat then lself_potential A l else source_sum (fun q => potential_radial_ring (fst (lcenter l)) (snd (lcenter l)) (vx q) (vz q)) (line_charge (nth j ts l))).
    { intros j Lj. transitivity (nu_potential nu (s_vertices s) k j); [destruct Hc as [(V & ->)|[(g & ->)|(V & ->)]]; reflexivity|].
      unfold nu, backend_numerics. cbn [nu_potential]. rewrite (entry_lines _ _ _ _ l Lk Lj), El.
      destruct l as [[[p0 p1] p2] p3], (nth j ts _) as [[[q0 q1] q2] q3]. rewrite lself_potential_eq, lcenter_eq, line_charge_eq. unfold radial_potential_entry. destruct (k =? j)%nat; reflexivity. }
    rewrite (Rsum_single _ (length ts) k Lk).
    - rewrite (Ent k Lk), Nat.eqb_refl, El. unfold lrule_potential. ring.
    - intros j Lj Nj. rewrite (Ent j Lj). destruct (Nat.eqb_spec k j) as [E|_]; [congruence|]. ring.
  Qed.
  Lemma flux_row_line k c v l : nth_error (s_elements s) k = Some (Some (c, v)) -> nth_error ts k = Some l -> 0 <= fst (lcenter l) ->
    c = DIELECTRIC v \/ c = MAGNETIZABLE v ->
    nth k x 0 = flux_density_to_charge_factor v * (fst (lnormal l) * vx (field_radial (lpoint l) cs) + snd (lnormal l) * vz (field_radial (lpoint l) cs))
      + nth k x 0 * (lself_flux A v l - flux_density_to_charge_factor v * lrule_flux l) - nth k rhs 0.
  Proof using Hv Lx Rows.
    intros Hk Hl R0 Hc. rewrite <- (Rows _ _ Hk). rewrite len_vs.
    assert (Lk : (k < length ts)%nat) by (eapply nth_error_lt; exact Hl). assert (El : nth k ts l = l) by (apply nth_error_nth; exact Hl).
    unfold lpoint. rewrite (field_radial_component _ _ (lnormal l) cs R0). unfold cs. rewrite (evaluate_indexed _ _ _ _ ts l Lx).
    rewrite <- Rsum_scal.
    match goal with |- ?a = ?b + ?c - ?d => cut (b - d = a - c); [lra|] end. rewrite Rsum_minus.
    assert (Ent : forall j, (j < length ts)%nat -> matrix_entry nu s k j (Some (c, v)) =
      if (k =? j)%nat then lself_flux A v l - 1 else source_sum (fun q => field_dot_normal_radial (lnormal l) v (fst (lcenter l)) (snd (lcenter l)) (vx q) (vz q)) (line_charge (nth j ts l))).
    { intros j Lj. transitivity (nu_flux nu v (s_vertices s) k j); [destruct Hc as [-> | ->]; reflexivity|].
      unfold nu, backend_numerics. cbn [nu_flux]. rewrite (entry_lines _ _ _ _ l Lk Lj), El.
      destruct l as [[[p0 p1] p2] p3], (nth j ts _) as [[[q0 q1] q2] q3]. rewrite lself_flux_eq, lcenter_eq, lnormal_eq, line_charge_eq. unfold radial_flux_entry. destruct (k =? j)%nat; reflexivity. }
    rewrite (Rsum_single _ (length ts) k Lk).
    - rewrite (Ent k Lk), Nat.eqb_refl, El. unfold lrule_flux. ring.
    - intros j Lj Nj. rewrite (Ent j Lj). destruct (Nat.eqb_spec k j) as [E|_]; [congruence|].
      rewrite <- Rmult_assoc, <- Rmult_minus_distr_r. replace (_ - _) with 0; [ring|]. unfold source_sum. rewrite <- Rsum_scal.
      match goal with |- 0 = ?p - ?q => replace p with q; [ring|] end. apply Rsum_ext. intros jp _. unfold field_dot_normal_radial. ring.
  Qed.
End RadialRows.

(** ** Rows of triangles *)
Lemma center_mean t0 t1 t2 : triangle_center t0 t1 t2 = triangle_mean t0 t1 t2.
Proof. unfold triangle_center, triangle_mean, position_3d. cbv zeta. apply vec_eq; cbn [vx vy vz vsub]; field. Qed.
Lemma field_3d_component p n cs : dot n (field_3d p cs) = evaluate (field_dot_normal_3d n p) cs.
Proof.
  unfold dot, field_3d. cbn [vx vy vz]. unfold evaluate, source_sum, field_dot_normal_3d. induction (q_items cs) as [|[q s] l IH]; cbn [map Rsum fst snd]; [ring|].
  rewrite <- IH. assert (E : forall s : source, Rsum (map (fun jp => fst jp * (vx n * - dx1_potential_3d_point p (snd jp) + vy n * - dy1_potential_3d_point p (snd jp) + vz n * - dz1_potential_3d_point p (snd jp))) s) =
    - vx n * Rsum (map (fun jp => fst jp * dx1_potential_3d_point p (snd jp)) s) - vy n * Rsum (map (fun jp => fst jp * dy1_potential_3d_point p (snd jp)) s) - vz n * Rsum (map (fun jp => fst jp * dz1_potential_3d_point p (snd jp)) s)).
  { clear. induction s as [|[j q] s IH]; cbn [map Rsum fst snd]; [ring|]. rewrite IH. ring. }
  rewrite E. ring.
Qed.
Lemma in_map2 {A B C} (f : A -> B -> C) l : forall m c, In c (map2 f l m) -> exists a b, c = f a b.
Proof. induction l as [|a l IH]; intros [|b m] c H; try destruct H as [<-|H]; eauto; contradiction. Qed.
Lemma self_flux_zero t : trule_flux t (tcenter t) (tnormal t) = 0.
Proof.
  destruct t as [[t0 t1] t2]. unfold trule_flux, source_sum. rewrite tri_charge_eq, tcenter_eq, tnormal_eq. unfold triangle_source.
  assert (Z : forall q, In q (position_buffer_3d t0 t1 t2) -> field_dot_normal_3d (normal_3d t0 t1 t2) (triangle_mean t0 t1 t2) q = 0).
  { intros q Hq. apply in_map2 in Hq. destruct Hq as (b1 & b2 & ->). set (x := Q2R b1). set (y := Q2R b2). clearbody x y.
    unfold field_dot_normal_3d, dx1_potential_3d_point, dy1_potential_3d_point, dz1_potential_3d_point, normal_3d.
    match goal with |- context [norm (vsub ?q (triangle_mean t0 t1 t2))] => set (D := norm (vsub q (triangle_mean t0 t1 t2))) end. set (N := norm (raw_normal_3d t0 t1 t2)). clearbody D N.
    unfold raw_normal_3d, triangle_mean. cbn [vx vy vz]. unfold Rdiv.
    generalize (/ (4 * PI * D ^ 3)). generalize (/ N). intros iN iD. field. }
  assert (G : forall (l : source), (forall j q, In (j, q) l -> field_dot_normal_3d (normal_3d t0 t1 t2) (triangle_mean t0 t1 t2) q = 0) ->
    Rsum (map (fun jp => fst jp * field_dot_normal_3d (normal_3d t0 t1 t2) (triangle_mean t0 t1 t2) (snd jp)) l) = 0).
  { induction l as [|[j q] l IH]; intros H; [reflexivity|]. cbn [map Rsum fst snd]. rewrite (H j q) by (left; reflexivity). rewrite IH by (intros j' q' I; apply (H j' q'); right; exact I). ring. }
  apply G. intros j q Hq. apply Z. eapply in_combine_r. exact Hq.
Qed.

Section TriangleRows.
  Variables (A : analysis) (e : excitation) (s : solver) (ts : list tri3) (x : list R) (rhs : list R).
  Hypothesis Hv : Forall2 (fun v t => map (an_pos A) v = tri_points t) (s_vertices s) ts.
  Hypothesis Lx : length x = length ts.
  Let nu := backend_numerics A.
  Let cs := mkcharges TRIANGLE_RULE (combine x (map tri_charge ts)).
  Hypothesis Rows : forall k el, nth_error (s_elements s) k = Some el ->
    Rsum (map (fun j => matrix_entry nu s k j el * nth j x 0) (arange (length (s_vertices s)))) = nth k rhs 0.

  Lemma entry_triangles radial (three : bool -> vec3 -> vec3 -> vec3 -> vec3 -> vec3 -> vec3 -> R) k j d : (k < length ts)%nat -> (j < length ts)%nat ->
    entry A radial three (s_vertices s) k j =
    (let '(p0, p1, p2) := nth k ts d in let '(q0, q1, q2) := nth j ts d in three (k =? j)%nat p0 p1 p2 q0 q1 q2).
  Proof using Hv.
    intros Lk Lj. unfold entry, with_rows at 1. rewrite (Forall2_nth_d _ _ _ [] d Hv k Lk). destruct (nth k ts d) as [[p0 p1] p2]. cbn [tri_points].
    unfold with_rows. rewrite (Forall2_nth_d _ _ _ [] d Hv j Lj). destruct (nth j ts d) as [[q0 q1] q2]. reflexivity.
  Qed.
  Lemma len_vs3 : length (s_vertices s) = length ts.
  Proof using Hv. exact (Forall2_length _ _ _ Hv). Qed.

  Lemma potential_row_triangle k c v t : nth_error (s_elements s) k = Some (Some (c, v)) -> nth_error ts k = Some t ->
    (exists V, c = VOLTAGE_FIXED V) \/ (exists g, c = VOLTAGE_FUN g) \/ (exists V, c = MAGNETOSTATIC_POT V) ->
    potential_3d (tcenter t) cs = nth k rhs 0 +
      Rsum (map (fun j => nth j x 0 * let u := nth j ts t in if negb (k =? j)%nat && tfar u (tcenter t) then 0
                                                             else trule_potential u (tcenter t) - tpotential A u (tcenter t)) (arange (length ts))).
  Proof using Hv Lx Rows.
    intros Hk Hl Hc. rewrite <- (Rows _ _ Hk). rewrite len_vs3.
    assert (Lk : (k < length ts)%nat) by (eapply nth_error_lt; exact Hl). assert (El : nth k ts t = t) by (apply nth_error_nth; exact Hl).
    unfold potential_3d, cs. rewrite (evaluate_indexed _ _ _ _ ts t Lx).
    match goal with |- ?a = ?b + ?c => cut (a - b = c); [lra|] end. rewrite Rsum_minus. apply Rsum_ext. intros j Hj. apply arange_In in Hj.
    assert (Ent : matrix_entry nu s k j (Some (c, v)) =
      let u := nth j ts t in if negb (k =? j)%nat && tfar u (tcenter t) then trule_potential u (tcenter t) else tpotential A u (tcenter t)).
    { transitivity (nu_potential nu (s_vertices s) k j); [destruct Hc as [(V & ->)|[(g & ->)|(V & ->)]]; reflexivity|].
      unfold nu, backend_numerics. cbn [nu_potential]. rewrite (entry_triangles _ _ _ _ t Lk Hj), El.
      destruct t as [[p0 p1] p2], (nth j ts _) as [[q0 q1] q2]. unfold potential_entry_3d. rewrite center_mean, tcenter_eq. unfold trule_potential. rewrite tri_charge_eq. reflexivity. }
    rewrite Ent. cbv zeta. unfold trule_potential. destruct (negb (k =? j)%nat && tfar (nth j ts t) (tcenter t)); ring.
  Qed.
  Lemma flux_row_triangle k c v t : nth_error (s_elements s) k = Some (Some (c, v)) -> nth_error ts k = Some t ->
    c = DIELECTRIC v \/ c = MAGNETIZABLE v ->
    nth k x 0 = flux_density_to_charge_factor v * (dot (tnormal t) (field_3d (tcenter t) cs) +
      Rsum (map (fun j => nth j x 0 * let u := nth j ts t in if (k =? j)%nat || tfar u (tcenter t) then 0
                                                             else tflux A u (tcenter t) (tnormal t) - trule_flux u (tcenter t) (tnormal t)) (arange (length ts)))) - nth k rhs 0.
  Proof using Hv Lx Rows.
    intros Hk Hl Hc. rewrite <- (Rows _ _ Hk). rewrite len_vs3.
    assert (Lk : (k < length ts)%nat) by (eapply nth_error_lt; exact Hl). assert (El : nth k ts t = t) by (apply nth_error_nth; exact Hl).
    rewrite field_3d_component. unfold cs. rewrite (evaluate_indexed _ _ _ _ ts t Lx). rewrite <- Rsum_plus, <- Rsum_scal.
    match goal with |- ?a = ?b - ?d => cut (b - d = a); [lra|] end. rewrite Rsum_minus.
    assert (Ent : forall j, (j < length ts)%nat -> matrix_entry nu s k j (Some (c, v)) =
      let u := nth j ts t in if (k =? j)%nat then -1 else if tfar u (tcenter t) then flux_density_to_charge_factor v * trule_flux u (tcenter t) (tnormal t)
                                                          else flux_density_to_charge_factor v * tflux A u (tcenter t) (tnormal t)).
    { intros j Hj. transitivity (nu_flux nu v (s_vertices s) k j); [destruct Hc as [-> | ->]; reflexivity|].
      unfold nu, backend_numerics. cbn [nu_flux]. rewrite (entry_triangles _ _ _ _ t Lk Hj), El.
      destruct t as [[p0 p1] p2], (nth j ts _) as [[q0 q1] q2]. unfold flux_entry_3d. rewrite center_mean. cbv zeta. destruct (k =? j)%nat; [reflexivity|].
      rewrite tfar_eq, tcenter_eq, tnormal_eq. destruct (far _ q0 q1); [|unfold tflux, Rdiv; ring].
      unfold trule_flux. rewrite tri_charge_eq. unfold source_sum. rewrite <- Rsum_scal. apply Rsum_ext. intros jp _. ring. }
    rewrite (Rsum_single _ (length ts) k Lk).
    - rewrite (Ent k Lk), Nat.eqb_refl, El. cbv zeta. cbn [orb]. pose proof (self_flux_zero t) as Z. unfold trule_flux in Z. rewrite Z. ring.
    - intros j Lj Nj. rewrite (Ent j Lj). cbv zeta. destruct (Nat.eqb_spec k j) as [E|_]; [congruence|]. cbn [orb]. unfold trule_flux. destruct (tfar (nth j ts t) (tcenter t)); ring.
  Qed.
End TriangleRows.

(** ** Solved problems *)
Lemma all_lines pos vs : Forall (fun v : list point => length v = 4%nat) vs -> exists ts, Forall2 (fun v l => map pos v = line_points l) vs ts.
Proof.
  induction 1 as [|v vs H F (ts & IH)]; [exists []; constructor|]. destruct v as [|a [|b [|c [|d [|]]]]]; try discriminate.
  exists ((pos a, pos b, pos c, pos d) :: ts). constructor; [reflexivity|exact IH].
Qed.
Lemma all_triangles pos vs : Forall (fun v : list point => length v = 3%nat) vs -> exists ts, Forall2 (fun v t => map pos v = tri_points t) vs ts.
Proof.
  induction 1 as [|v vs H F (ts & IH)]; [exists []; constructor|]. destruct v as [|a [|b [|c [|]]]]; try discriminate.
  exists ((pos a, pos b, pos c) :: ts). constructor; [reflexivity|exact IH].
Qed.
Lemma vertices_width e n act vs : (forall r, In r (elements_of e) -> length r = n) -> Forall2 (vertices_of e) act vs -> Forall (fun v => length v = n) vs.
Proof.
  intros H F. induction F as [|i v act vs (r & R1 & R2) F IH]; constructor; [|exact IH]. rewrite <- (Forall2_length _ _ _ R2). apply H. eapply nth_error_In. exact R1.
Qed.
Lemma elements_at pos e act vs (T : Type) (pts : T -> list vec3) ts : Forall2 (vertices_of e) act vs -> Forall2 (fun v t => map pos v = pts t) vs ts ->
  Forall2 (fun i t => element_at pos e i (pts t)) act ts.
Proof.
  intros F. revert ts. induction F as [|i v act vs H F IH]; intros ts G; inversion G; subst; constructor; [|apply IH; assumption]. exists v. split; [exact H|symmetry; assumption].
Qed.
Lemma sources_map {T} (nu_el : list point -> source) (src : T -> source) vs ts (P : list point -> T -> Prop) : Forall2 P vs ts ->
  (forall v t, P v t -> nu_el v = src t) -> map nu_el vs = map src ts.
Proof. intros F H. induction F as [|v t vs ts Hp F IH]; [reflexivity|]. cbn [map]. rewrite IH, (H v t Hp). reflexivity. Qed.

Section Solved.
  Variables (A : analysis) (kind : condition -> Prop) (check : condition -> bool) (e : excitation) (s : solver).
  Let nu := backend_numerics A.
  Hypothesis Hk : forall c, check c = true <-> kind c.
  Hypothesis Hlin : linear_solver (an_solve A).
  Hypothesis Hm : mesh_ok (e_mesh e).
  Hypothesis Hs : new_solver nu (active_elements check) e = Ok s.
  Variables (to_field : charges -> result bem) (rhs : list R) (f : bem).
  Hypothesis Hf : solve_matrix nu s to_field [rhs] = Ok [f].

  Lemma groups_NoDup : NoDup (dkeys (groups_of e)).
  Proof using Hm. clear Hs Hf. destruct Hm as [_ _ _ [P _] [T _]]. unfold groups_of. destruct (e_symmetry e); assumption. Qed.

  Lemma solved_radial : e_symmetry e = RADIAL -> is_2d (e_mesh e) = true ->
    exists act ls qs, length qs = length ls /\ active_list kind e act /\ Forall2 (fun i l => element_at (an_pos A) e i (line_points l)) act ls /\
      Forall2 (fun v l => map (an_pos A) v = line_points l) (s_vertices s) ls /\
      to_field (mkcharges LINE_RULE (combine qs (map line_charge ls))) = Ok f /\
      (forall k el, nth_error (s_elements s) k = Some el ->
        Rsum (map (fun j => matrix_entry nu s k j el * nth j qs 0) (arange (length (s_vertices s)))) = nth k rhs 0) /\
      forall k i c l, nth_error act k = Some i -> governed kind e i c -> nth_error ls k = Some l ->
        exists v, nth_error (s_vertices s) k = Some v /\ map (an_pos A) v = line_points l /\ nth_error (s_elements s) k = Some (Some (c, element_value nu v c)).
  Proof using Hk Hlin Hm Hs Hf.
    intros Sym D2. destruct (solver_elements nu check kind e s Hk groups_NoDup Hs) as (E1 & E2 & act & A1 & A2 & A3).
    destruct (solution_rows nu s to_field rhs f Hlin E2 Hf) as (x & X1 & X2 & X3).
    destruct (new_solver_ok _ _ _ _ Hs) as (_ & _ & _ & _ & _ & _ & _ & _ & _ & Hh). rewrite D2 in Hh. cbn [andb] in Hh.
    destruct (all_lines (an_pos A) (s_vertices s)) as (ls & Hls).
    { apply (vertices_width e 4 act); [|exact A2]. intros r Hr. unfold elements_of in Hr. rewrite Sym in Hr. destruct Hm as [_ [_ Wl] _ _ _]. destruct (Wl r Hr) as [-> _].
      unfold is_higher_order in Hh. destruct (Nat.eqb_spec (aw (m_lines (e_mesh e))) 4) as [Q|Q]; [exact Q|discriminate]. }
    exists act, ls, x. pose proof (Forall2_length _ _ _ Hls) as Ll.
    split; [congruence|]. split; [exact A1|]. split; [exact (elements_at _ _ _ _ _ _ _ A2 Hls)|]. split; [exact Hls|]. split; [|split; [exact X3|]].
    - rewrite E1 in X2. unfold mesh_rule, sources in X2. rewrite E1, D2 in X2.
      rewrite (sources_map (nu_line nu) line_charge _ _ _ Hls) in X2; [exact X2|]. intros v l E. unfold nu, backend_numerics. cbn [nu_line]. unfold with_rows. rewrite E.
      destruct l as [[[p0 p1] p2] p3]. rewrite line_charge_eq. reflexivity.
    - intros k i c l Ki G Kl. destruct (Forall2_nth_r _ _ _ _ _ Hls Kl) as (v & V1 & V2). exists v. split; [exact V1|]. split; [exact V2|]. exact (A3 k i c v Ki G V1).
  Qed.
  Lemma solved_three_d : e_symmetry e = THREE_D -> is_2d (e_mesh e) = false ->
    exists act ts qs, length qs = length ts /\ active_list kind e act /\ Forall2 (fun i t => element_at (an_pos A) e i (tri_points t)) act ts /\
      Forall2 (fun v t => map (an_pos A) v = tri_points t) (s_vertices s) ts /\
      to_field (mkcharges TRIANGLE_RULE (combine qs (map tri_charge ts))) = Ok f /\
      (forall k el, nth_error (s_elements s) k = Some el ->
        Rsum (map (fun j => matrix_entry nu s k j el * nth j qs 0) (arange (length (s_vertices s)))) = nth k rhs 0) /\
      forall k i c t, nth_error act k = Some i -> governed kind e i c -> nth_error ts k = Some t ->
        exists v, nth_error (s_vertices s) k = Some v /\ map (an_pos A) v = tri_points t /\ nth_error (s_elements s) k = Some (Some (c, element_value nu v c)).
  Proof using Hk Hlin Hm Hs Hf.
    intros Sym D2. destruct (solver_elements nu check kind e s Hk groups_NoDup Hs) as (E1 & E2 & act & A1 & A2 & A3).
    destruct (solution_rows nu s to_field rhs f Hlin E2 Hf) as (x & X1 & X2 & X3).
    destruct (all_triangles (an_pos A) (s_vertices s)) as (ls & Hls).
    { apply (vertices_width e 3 act); [|exact A2]. intros r Hr. unfold elements_of in Hr. rewrite Sym in Hr. destruct Hm as [_ _ [Wa Wl] _ _]. destruct (Wl r Hr) as [-> _].
      destruct Wa as [Q|[]]; [intros E; rewrite E in Hr; destruct Hr|congruence]. }
    exists act, ls, x. pose proof (Forall2_length _ _ _ Hls) as Ll.
    split; [congruence|]. split; [exact A1|]. split; [exact (elements_at _ _ _ _ _ _ _ A2 Hls)|]. split; [exact Hls|]. split; [|split; [exact X3|]].
    - rewrite E1 in X2. unfold mesh_rule, sources in X2. rewrite E1, D2 in X2.
      rewrite (sources_map (nu_triangle nu) tri_charge _ _ _ Hls) in X2; [exact X2|]. intros v l E. unfold nu, backend_numerics. cbn [nu_triangle]. unfold with_rows. rewrite E.
      destruct l as [[p0 p1] p2]. rewrite tri_charge_eq. reflexivity.
    - intros k i c l Ki G Kl. destruct (Forall2_nth_r _ _ _ _ _ Hls Kl) as (v & V1 & V2). exists v. split; [exact V1|]. split; [exact V2|]. exact (A3 k i c v Ki G V1).
  Qed.
End Solved.

(** ** solve_direct is the electrostatic and the magnetostatic solution together *)
Lemma charges_add_nil_r a b c : q_items b = [] -> charges_add a b = Ok c -> q_items c = q_items a.
Proof.
  intros H. unfold charges_add. rewrite H. cbn [map]. destruct (rule_eqb (q_rule a) (q_rule b)); cbn [andb]; [|discriminate]. match goal with |- context [same_sources ?x ?y] => destruct (same_sources x y) eqn:E end.
  - intros Q. injection Q as <-. cbn [q_items]. unfold same_sources in E. destruct list_eq_dec as [E'|]; [|discriminate]. destruct (q_items a); [reflexivity|discriminate].
  - intros Q. injection Q as <-. cbn [q_items]. apply app_nil_r.
Qed.
Lemma charges_add_nil_l a b c : q_items a = [] -> charges_add a b = Ok c -> q_items c = q_items b.
Proof.
  intros H. unfold charges_add. rewrite H. cbn [map]. destruct (rule_eqb (q_rule a) (q_rule b)); cbn [andb]; [|discriminate]. match goal with |- context [same_sources ?x ?y] => destruct (same_sources x y) eqn:E end.
  - intros Q. injection Q as <-. cbn [q_items]. unfold same_sources in E. destruct list_eq_dec as [E'|]; [|discriminate]. destruct (q_items b); [reflexivity|discriminate].
  - intros Q. injection Q as <-. reflexivity.
Qed.
Lemma single_get {T} (r : result (list T)) f : (fs <- r ;; np_get fs 0) = Ok f -> (forall fs, r = Ok fs -> length fs = 1%nat) -> r = Ok [f].
Proof.
  intros H L. destruct r as [fs|]; [|discriminate]. specialize (L fs eq_refl). destruct fs as [|g [|]]; try discriminate. cbn in H. injection H as ->. reflexivity.
Qed.
Lemma solve_matrix_length nu s to_field rhs fs : solve_matrix nu s to_field rhs = Ok fs -> length fs = length rhs.
Proof. intros H. apply solve_matrix_ok in H. destruct H as (xs & F1 & F2). rewrite <- (Forall2_length _ _ _ F2). symmetry. exact (Forall2_length _ _ _ F1). Qed.
Lemma solve_electrostatic_inv nu e f : solve_electrostatic nu e = Ok f ->
  exists s, electrostatic_solver nu e = Ok s /\ solve_matrix nu s (electrostatic_field (e_mesh e)) [electrostatic_rhs s] = Ok [f].
Proof.
  unfold solve_electrostatic. intros H. apply bind_ok in H. destruct H as (s & Hs & H). exists s. split; [exact Hs|]. apply single_get; [exact H|].
  intros fs E. rewrite (solve_matrix_length _ _ _ _ _ E). reflexivity.
Qed.
Lemma solve_magnetostatic_inv nu e f : solve_magnetostatic nu e = Ok f ->
  exists s cs, magnetostatic_solver nu e = Ok s /\ current_charges nu e = Ok cs /\
    solve_matrix nu s (magnetostatic_field (e_mesh e) cs) [magnetostatic_rhs nu s cs] = Ok [f].
Proof.
  unfold solve_magnetostatic. intros H. apply bind_ok in H. destruct H as (s & Hs & H). apply bind_ok in H. destruct H as (cs & Hc & H). exists s, cs. split; [exact Hs|]. split; [exact Hc|].
  apply single_get; [exact H|]. intros fs E. rewrite (solve_matrix_length _ _ _ _ _ E). reflexivity.
Qed.
Lemma magnetostatic_field_get m cur c g : magnetostatic_field m cur c = Ok g -> b_mag g = c /\ q_items (b_elec g) = [] /\
  b_cur g = (if is_3d m then empty_3d else cur) /\ b_class g = (if is_3d m then Field3D_BEM else FieldRadialBEM).
Proof.
  unfold magnetostatic_field, three_d_bem. destruct (is_3d m); [cbn; destruct (q_rule c); cbn; intros H; [discriminate|]|intros H]; injection H as <-; auto.
Qed.
Lemma electrostatic_parts nu e f : solve_electrostatic nu e = Ok f -> q_items (b_mag f) = [] /\ q_items (b_cur f) = [] /\ b_class f = (if is_3d (e_mesh e) then Field3D_BEM else FieldRadialBEM).
Proof.
  intros H. destruct (solve_electrostatic_inv _ _ _ H) as (s & _ & Hf). apply solve_matrix_ok in Hf. destruct Hf as (xs & _ & F). inversion F; subst.
  match goal with Q : electrostatic_field _ _ = Ok _ |- _ => apply electrostatic_field_get in Q; tauto end.
Qed.
Lemma magnetostatic_parts nu e f : solve_magnetostatic nu e = Ok f -> q_items (b_elec f) = [] /\ b_class f = (if is_3d (e_mesh e) then Field3D_BEM else FieldRadialBEM).
Proof.
  intros H. destruct (solve_magnetostatic_inv _ _ _ H) as (s & cs & _ & _ & Hf). apply solve_matrix_ok in Hf. destruct Hf as (xs & _ & F). inversion F; subst.
  match goal with Q : magnetostatic_field _ _ _ = Ok _ |- _ => apply magnetostatic_field_get in Q; tauto end.
Qed.
Lemma direct_electrostatic nu o third e0 e f : solve_direct nu o third e0 = Ok f -> solved_excitation o third e0 = Ok e -> is_electrostatic e = true ->
  exists g, solve_electrostatic nu e = Ok g /\ q_items (b_elec f) = q_items (b_elec g) /\ b_class f = b_class g.
Proof.
  intros H S E. unfold solve_direct in H. rewrite S in H. cbn [bind] in H. cbv zeta in H. rewrite E in H. rewrite orb_true_r, andb_true_r in H. cbn [py_assert bind] in H.
  destruct (is_magnetostatic e); [|exists f; auto]. apply bind_ok in H. destruct H as (g & Hg & H). apply bind_ok in H. destruct H as (h & Hh & H).
  exists g. split; [exact Hg|]. destruct (magnetostatic_parts _ _ _ Hh) as [M1 M2]. unfold bem_add in H.
  apply bind_ok in H. destruct H as (c1 & C1 & H). apply bind_ok in H. destruct H as (c2 & C2 & H). apply bind_ok in H. destruct H as (c3 & C3 & H).
  destruct (b_class g); [|discriminate]. injection H as <-. cbn. split; [|reflexivity]. exact (charges_add_nil_r _ _ _ M1 C1).
Qed.
Lemma direct_magnetostatic nu o third e0 e f : solve_direct nu o third e0 = Ok f -> solved_excitation o third e0 = Ok e -> is_magnetostatic e = true ->
  exists g, solve_magnetostatic nu e = Ok g /\ q_items (b_mag f) = q_items (b_mag g) /\ q_items (b_cur f) = q_items (b_cur g) /\ b_class f = b_class g.
Proof.
  intros H S E. unfold solve_direct in H. rewrite S in H. cbn [bind] in H. cbv zeta in H. rewrite E in H. cbn [orb andb py_assert bind] in H.
  destruct (is_electrostatic e); [|exists f; auto]. apply bind_ok in H. destruct H as (g & Hg & H). apply bind_ok in H. destruct H as (h & Hh & H).
  exists h. split; [exact Hh|]. destruct (magnetostatic_parts _ _ _ Hh) as [M1 M2]. destruct (electrostatic_parts _ _ _ Hg) as (P1 & P2 & P3). unfold bem_add in H.
  apply bind_ok in H. destruct H as (c1 & C1 & H). apply bind_ok in H. destruct H as (c2 & C2 & H). apply bind_ok in H. destruct H as (c3 & C3 & H).
  destruct (b_class g) eqn:Eg; [|discriminate]. injection H as <-. cbn.
  split; [exact (charges_add_nil_l _ _ _ P1 C2)|]. split; [exact (charges_add_nil_l _ _ _ P2 C3)|]. congruence.
Qed.
Lemma evaluate_items K a b : q_items a = q_items b -> evaluate K a = evaluate K b.
Proof. intros H. unfold evaluate. rewrite H. reflexivity. Qed.
