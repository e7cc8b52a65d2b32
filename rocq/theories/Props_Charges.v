(** Property theorems about currents, areas and charges of elements: C63, C64, C65. *)
From Coq Require Import Reals Lra Lia Sorted QArith Qreals.
From Coquelicot Require Import Coquelicot.
From Verif Require Import Base BaseFacts Float64 OrientModel MeshModel MeshSpec MeshFacts MeshOps MeshMisc MeshExamples Vec GeomModel Tables QuadModel QuadFacts OutwardFacts Props_Geom Props_Quad
  ExcitationModel ExcitationFacts FieldModel FieldFacts TriangleModel SolverModel Props_Excitation SolverFacts Props_Solver MatrixModel MatrixSpec MatrixSpecFacts MatrixFacts Props_Matrix.
Local Open Scope R_scope.

(** ** Specification *)
(** The area of a triangle. *)
Definition tarea (t : tri3) : R := let '(a, b, c) := t in norm (cross (vsub b a) (vsub c a)) / 2.
(** The curve of a line element and the length of its tangent are [lcurve] and [lspeed] of MatrixSpec. *)
(** [l] is the straight segment from [a] to [b]. *)
Definition straight (l : line4) (a b : vec3) : Prop := l = (a, b, vadd a (vscale (1/3) (vsub b a)), vadd a (vscale (2/3) (vsub b a))).
Definition segment_length (a b : vec3) : R := sqrt ((vx b - vx a) ^ 2 + (vz b - vz a) ^ 2).

(** The curve passes through the four points. *)
Lemma lcurve_points p0 p1 p2 p3 : let l := (p0, p1, p2, p3) in
  lcurve l (-1) = (vx p0, vz p0) /\ lcurve l (-1/3) = (vx p2, vz p2) /\ lcurve l (1/3) = (vx p3, vz p3) /\ lcurve l 1 = (vx p1, vz p1).
Proof. cbv zeta. unfold lcurve, through. repeat split; f_equal; field. Qed.

(** ** Facts *)
Lemma line_charge_sum K l : source_sum K (line_charge l) = gauss16 (fun s => lspeed l s * K (V3 (fst (lcurve l s)) 0 (snd (lcurve l s)))).
Proof.
  unfold source_sum, line_charge, gauss16, QuadModel.rule. f_equal.
  generalize gauss_weights. generalize gauss_points. intros ps ws. revert ws. induction ps as [|x ps IH]; intros [|w ws]; [reflexivity..|].
  cbn [map2 map]. rewrite IH. f_equal. cbn [fst snd]. ring.
Qed.
Lemma gauss16_ext f g : (forall s, f s = g s) -> gauss16 f = gauss16 g.
Proof. intros H. unfold gauss16, QuadModel.rule. f_equal. generalize gauss_points, gauss_weights. induction l as [|x l IH]; intros [|w ws]; [reflexivity..|]. cbn [map2]. rewrite H, IH. reflexivity. Qed.
Lemma gauss16_scale k f : gauss16 (fun s => k * f s) = k * gauss16 f.
Proof. unfold gauss16, QuadModel.rule. generalize gauss_points, gauss_weights. induction l as [|x l IH]; intros [|w ws]; cbn [map2 Rsum]; try ring. rewrite IH. ring. Qed.
Lemma straight_curve a b s : let l := (a, b, vadd a (vscale (1/3) (vsub b a)), vadd a (vscale (2/3) (vsub b a))) in
  fst (lcurve l s) = vx a + (1 + s) / 2 * (vx b - vx a) /\ lspeed l s = segment_length a b / 2.
Proof.
  cbv zeta. split; [unfold lcurve, through; simpl; field|]. rewrite lspeed_eq. unfold jacobian_radial, segment_length.
  replace (cubic_deriv16 s (vz a) (vz (vadd a (vscale (1/3) (vsub b a)))) (vz (vadd a (vscale (2/3) (vsub b a)))) (vz b)) with (8 * (vz b - vz a)) by (unfold cubic_deriv16; simpl; field).
  replace (cubic_deriv16 s (vx a) (vx (vadd a (vscale (1/3) (vsub b a)))) (vx (vadd a (vscale (2/3) (vsub b a)))) (vx b)) with (8 * (vx b - vx a)) by (unfold cubic_deriv16; simpl; field).
  replace ((8 * (vz b - vz a)) ^ 2 + (8 * (vx b - vx a)) ^ 2) with (8 * 8 * ((vx b - vx a) ^ 2 + (vz b - vz a) ^ 2)) by ring.
  rewrite sqrt_mult; [|lra|apply Rplus_le_le_0_compat; apply pow2_ge_0]. rewrite sqrt_square by lra. field.
Qed.
(** The rule for a cone: 2 pi times the mean radius times the length. *)
Lemma straight_area l a b : straight l a b -> 0 <= vx a -> 0 <= vx b ->
  Rabs (2 * PI * gauss16 (fun s => lspeed l s * fst (lcurve l s)) - PI * (vx a + vx b) * segment_length a b) <= 1 / 10 ^ 16 * (PI * (vx a + vx b) * segment_length a b).
Proof.
  intros -> Ha Hb. set (L := segment_length a b). assert (HL : 0 <= L) by apply sqrt_pos.
  rewrite (gauss16_ext _ (fun s => (L / 2) * poly [(vx a + vx b) / 2; (vx b - vx a) / 2] s)).
  - rewrite gauss16_scale. pose proof (C40_gauss [(vx a + vx b) / 2; (vx b - vx a) / 2] ltac:(cbn; lia)) as G. 
    assert (I : RInt (poly [(vx a + vx b) / 2; (vx b - vx a) / 2]) (-1) 1 = vx a + vx b).
    { apply is_RInt_unique. set (m := (vx a + vx b) / 2). set (d := (vx b - vx a) / 2). replace (vx a + vx b) with (2 * m) by (unfold m; field). clearbody m d.
      evar_last; [apply (is_RInt_derive (fun s => m * s + d / 2 * s ^ 2) (poly [m; d]))|].
      - intros x _. unfold poly. cbn [poly_from]. auto_derive; [exact I|]. cbn [pow]. field.
      - intros x _. apply (ex_derive_continuous (poly [m; d])). apply ex_derive_poly.
      - unfold minus, plus, opp; simpl; field. }
    rewrite I in G. set (Q := gauss16 _) in *. clearbody Q. pose proof PI_RGT_0 as P.
    assert (S : abs_sum [(vx a + vx b) / 2; (vx b - vx a) / 2] <= vx a + vx b).
    { unfold abs_sum. cbn. rewrite (Rabs_pos_eq ((vx a + vx b) / 2)) by lra. assert (Rabs ((vx b - vx a) / 2) <= (vx a + vx b) / 2) by (apply Rabs_le; lra). lra. }
    replace (2 * PI * (L / 2 * Q) - PI * (vx a + vx b) * L) with (PI * L * (Q - (vx a + vx b))) by field.
    rewrite Rabs_mult, (Rabs_pos_eq (PI * L)) by nra.
    replace (1 / 10 ^ 16 * (PI * (vx a + vx b) * L)) with (PI * L * (1 / 10 ^ 16 * (vx a + vx b))) by field. apply Rmult_le_compat_l; [nra|]. lra.
  - intros s. destruct (straight_curve a b s) as [-> ->]. unfold poly, poly_from, L. field.
Qed.
Lemma tri_area_scale t : source_sum (fun _ => 1) (tri_charge t) = Rsum (map (fun w => 2 * Q2R w) quad_weights) * tarea t.
Proof.
  destruct t as [[a b] c]. rewrite tri_charge_eq. unfold triangle_source, source_sum. rewrite (map_ext (fun jp : R * vec3 => fst jp * 1) fst) by (intros; ring).
  replace (map fst (combine (jacobian_buffer_3d a b c) (position_buffer_3d a b c))) with (jacobian_buffer_3d a b c) by reflexivity.
  unfold jacobian_buffer_3d. rewrite (proj2 (proj2 (proj2 (proj2 (proj2 (C47_areas a b c)))))), Rsum_map_scal. reflexivity.
Qed.
Lemma rule_weight : Rabs (Rsum (map (fun w => 2 * Q2R w) quad_weights) - 1) <= 3 / 10 ^ 15.
Proof. unfold quad_weights, Q2R; simpl. apply Rabs_le. lra. Qed.
Lemma tarea_pos t : 0 <= tarea t.
Proof. destruct t as [[a b] c]. unfold tarea. pose proof (norm_nonneg (cross (vsub b a) (vsub c a))). lra. Qed.
Lemma tri_area_close t : Rabs (source_sum (fun _ => 1) (tri_charge t) - tarea t) <= 3 / 10 ^ 15 * tarea t.
Proof.
  rewrite tri_area_scale. replace (Rsum (map (fun w => 2 * Q2R w) quad_weights) * tarea t - tarea t) with ((Rsum (map (fun w => 2 * Q2R w) quad_weights) - 1) * tarea t) by ring.
  rewrite Rabs_mult, (Rabs_pos_eq (tarea t)) by apply tarea_pos. apply Rmult_le_compat_r; [apply tarea_pos|apply rule_weight].
Qed.
Lemma items_nth {T} cs (src : T -> source) elems qs k t q : carries cs src elems qs -> nth_error elems k = Some t -> nth_error qs k = Some q ->
  nth_error (q_items cs) k = Some (q, src t).
Proof.
  intros (L & ->) Ht Hq. assert (G : forall (l1 : list R) (l2 : list source) j x y, nth_error l1 j = Some x -> nth_error l2 j = Some y -> nth_error (combine l1 l2) j = Some (x, y)).
  { induction l1 as [|u l1 IH]; intros [|v l2] [|j] x y; cbn; try discriminate; [congruence|apply IH]. }
  apply G; [exact Hq|]. rewrite nth_error_map, Ht. reflexivity.
Qed.
Lemma mapM_sum (f : nat -> result R) (g : nat -> R) idx : (forall i, In i idx -> f i = Ok (g i)) -> (l <- mapM f idx ;; Ok (Rsum l)) = Ok (Rsum (map g idx)).
Proof.
  intros H. replace (mapM f idx) with (Ok (map g idx)); [reflexivity|]. symmetry. induction idx as [|i idx IH]; [reflexivity|]. cbn [mapM map].
  rewrite (H i) by (left; reflexivity). cbn [bind]. rewrite IH by (intros j Hj; apply H; right; exact Hj). reflexivity.
Qed.

(** ** C64 Areas and charges of elements *)
(** Three dimensions: the charges are one density per triangle with an electrostatic condition, in mesh
    order; the area reported for the k-th of them is the area of that triangle (relative error 3e-15, from the
    tabulated weights), its charge is density times area, and areas and charges of several are sums. *)
Theorem C64_three_d A o third e0 e f :
  linear_solver (an_solve A) -> solved_excitation o third e0 = Ok e -> mesh_ok (e_mesh e) -> e_symmetry e = THREE_D -> is_3d (e_mesh e) = true ->
  is_electrostatic e = true -> solve_direct (backend_numerics A) o third e0 = Ok f ->
  exists act ts qs area, solved_triangles A electrostatic_kind e (b_elec f) act ts qs /\
    (forall k t, nth_error ts k = Some t -> area_of_element f k = Ok (area k) /\ Rabs (area k - tarea t) <= 3 / 10 ^ 15 * tarea t /\
       charge_on_element f k = Ok (nth k qs 0 * area k)) /\
    (forall k, (length ts <= k)%nat -> area_of_element f k = Err IndexError /\ charge_on_element f k = Err IndexError) /\
    (forall idx, (forall k, In k idx -> (k < length ts)%nat) ->
       area_of_elements f idx = Ok (Rsum (map area idx)) /\ charge_on_elements f idx = Ok (Rsum (map (fun k => nth k qs 0 * area k) idx))).
Proof.
  intros H1 H2 H3 H4 D3 H6 H7. destruct (C61_three_d_voltage A o third e0 e f H1 H2 H3 H4 D3 H6 H7) as (act & ts & qs & S & _).
  assert (Cl : b_class f = Field3D_BEM).
  { destruct (direct_electrostatic _ _ _ _ _ _ H7 H2 H6) as (g & Hg & _ & ->). destruct (electrostatic_parts _ _ _ Hg) as (_ & _ & ->). rewrite D3. reflexivity. }
  destruct S as (S1 & S2 & S3). pose proof S3 as (L & It). set (d3 := (vzero, vzero, vzero) : tri3).
  exists act, ts, qs, (fun k => source_sum (fun _ => 1) (tri_charge (nth k ts d3))). split; [split; [exact S1|split; assumption]|].
  assert (E : forall k t, nth_error ts k = Some t -> area_of_element f k = Ok (source_sum (fun _ => 1) (tri_charge (nth k ts d3))) /\
      charge_on_element f k = Ok (nth k qs 0 * source_sum (fun _ => 1) (tri_charge (nth k ts d3)))).
  { intros k t Hk. destruct (nth_error qs k) as [q|] eqn:Eq; [|apply nth_error_None in Eq; apply nth_error_lt in Hk; lia].
    pose proof (items_nth _ _ _ _ _ _ _ S3 Hk Eq) as G. apply np_get_ok in G. unfold charge_on_element, area_of_element. rewrite G, Cl. cbn [bind snd fst].
    rewrite (nth_error_nth _ _ d3 Hk), (nth_error_nth _ _ 0 Eq). split; [reflexivity|]. f_equal. ring. }
  split; [|split].
  - intros k t Hk. destruct (E k t Hk) as [E1 E2]. split; [exact E1|]. split; [|exact E2]. rewrite (nth_error_nth _ _ _ Hk). apply tri_area_close.
  - intros k Hk. assert (G : np_get (q_items (b_elec f)) k = Err IndexError).
    { unfold np_get. replace (nth_error (q_items (b_elec f)) k) with (@None (R * source)); [reflexivity|]. symmetry. apply nth_error_None. rewrite It, combine_length, map_length. lia. }
    unfold charge_on_element, area_of_element. rewrite G. split; reflexivity.
  - intros idx Hi. split; apply mapM_sum; intros k Hk; specialize (Hi k Hk); destruct (nth_error ts k) as [t|] eqn:Et;
      try (apply nth_error_None in Et; lia); apply (E k t Et).
Qed.
Print Assumptions C64_three_d.

(** Radial problems: the area of the surface of revolution, [2 pi] times the integral of radius times speed by the
    16-point rule; for straight lines the area of the cone. *)
Theorem C64_radial A o third e0 e f :
  linear_solver (an_solve A) -> solved_excitation o third e0 = Ok e -> mesh_ok (e_mesh e) -> e_symmetry e = RADIAL -> is_2d (e_mesh e) = true ->
  is_electrostatic e = true -> solve_direct (backend_numerics A) o third e0 = Ok f ->
  exists act ls qs area, solved_lines A electrostatic_kind e (b_elec f) act ls qs /\
    (forall k l, nth_error ls k = Some l -> area_of_element f k = Ok (area k) /\ area k = 2 * PI * gauss16 (fun s => lspeed l s * fst (lcurve l s)) /\
       (forall a b, straight l a b -> 0 <= vx a -> 0 <= vx b ->
          Rabs (area k - PI * (vx a + vx b) * segment_length a b) <= 1 / 10 ^ 16 * (PI * (vx a + vx b) * segment_length a b)) /\
       charge_on_element f k = Ok (nth k qs 0 * area k)) /\
    (forall k, (length ls <= k)%nat -> area_of_element f k = Err IndexError /\ charge_on_element f k = Err IndexError) /\
    (forall idx, (forall k, In k idx -> (k < length ls)%nat) ->
       area_of_elements f idx = Ok (Rsum (map area idx)) /\ charge_on_elements f idx = Ok (Rsum (map (fun k => nth k qs 0 * area k) idx))).
Proof.
  intros H1 H2 H3 H4 D2 H6 H7. destruct (C61_radial_voltage A o third e0 e f H1 H2 H3 H4 D2 H6 H7) as (act & ts & qs & S & _).
  assert (Cl : b_class f = FieldRadialBEM).
  { destruct (direct_electrostatic _ _ _ _ _ _ H7 H2 H6) as (g & Hg & _ & ->). destruct (electrostatic_parts _ _ _ Hg) as (_ & _ & ->). rewrite (planar _ D2). reflexivity. }
  destruct S as (S1 & S2 & S3). pose proof S3 as (L & It). set (d := (vzero, vzero, vzero, vzero) : line4).
  exists act, ts, qs, (fun k => 2 * PI * gauss16 (fun s => lspeed (nth k ts d) s * fst (lcurve (nth k ts d) s))). split; [split; [exact S1|split; assumption]|].
  assert (E : forall k t, nth_error ts k = Some t -> area_of_element f k = Ok (2 * PI * gauss16 (fun s => lspeed (nth k ts d) s * fst (lcurve (nth k ts d) s))) /\
      charge_on_element f k = Ok (nth k qs 0 * (2 * PI * gauss16 (fun s => lspeed (nth k ts d) s * fst (lcurve (nth k ts d) s))))).
  { intros k t Hk. destruct (nth_error qs k) as [q|] eqn:Eq; [|apply nth_error_None in Eq; apply nth_error_lt in Hk; lia].
    pose proof (items_nth _ _ _ _ _ _ _ S3 Hk Eq) as G. apply np_get_ok in G. unfold charge_on_element, area_of_element. rewrite G, Cl. cbn [bind snd fst].
    rewrite (nth_error_nth _ _ d Hk), (nth_error_nth _ _ 0 Eq), (line_charge_sum vx). cbn [vx]. split; [reflexivity|]. f_equal. ring. }
  split; [|split].
  - intros k t Hk. destruct (E k t Hk) as [E1 E2]. split; [exact E1|]. rewrite (nth_error_nth _ _ d Hk) in *. split; [reflexivity|]. split; [|exact E2].
    intros a b. apply straight_area.
  - intros k Hk. assert (G : np_get (q_items (b_elec f)) k = Err IndexError).
    { unfold np_get. replace (nth_error (q_items (b_elec f)) k) with (@None (R * source)); [reflexivity|]. symmetry. apply nth_error_None. rewrite It, combine_length, map_length. lia. }
    unfold charge_on_element, area_of_element. rewrite G. split; reflexivity.
  - intros idx Hi. split; apply mapM_sum; intros k Hk; specialize (Hi k Hk); destruct (nth_error ts k) as [t|] eqn:Et;
      try (apply nth_error_None in Et; lia); apply (E k t Et).
Qed.
Print Assumptions C64_radial.

(** ** C63 Currents *)
Definition triangle_of (pos : point -> vec3) (m : mesh) (i : nat) (t : tri3) : Prop :=
  exists r, nth_error (arows (m_triangles m)) i = Some r /\ exists v, Forall2 (fun k p => nth_error (m_points m) k = Some p) r v /\ map pos v = tri_points t.
(** The part of one condition in the currents: a uniform density [j] on the triangles of the group. *)
Definition conducts (pos : point -> vec3) (m : mesh) (nc : string * condition) (part : list (R * source)) : Prop :=
  match snd nc, dget (m_ptriangles m) (fst nc) with
  | CURRENT total, Some idx => exists ts j, Forall2 (triangle_of pos m) idx ts /\ part = map (fun t => (j, tri_charge t)) ts /\
      (0 < Rsum (map tarea ts) -> Rabs (j * Rsum (map tarea ts) - total) <= 4 / 10 ^ 15 * Rabs total)
  | _, _ => part = []
  end.
Lemma Rsum_tri ts : Rsum (map (source_sum (fun _ => 1)) (map tri_charge ts)) = Rsum (map (fun w => 2 * Q2R w) quad_weights) * Rsum (map tarea ts).
Proof. rewrite map_map, <- Rsum_scal. apply Rsum_ext. intros t _. apply tri_area_scale. Qed.
Lemma conducts_none pos m types : existsb (fun nc => match snd nc with CURRENT _ => true | _ => false end) types = false ->
  Forall2 (conducts pos m) types (map (fun _ => []) types).
Proof.
  induction types as [|[n c] l IH]; cbn; [constructor|]. intros H. apply orb_false_iff in H. destruct H as [H1 H2].
  constructor; [|apply IH; exact H2]. unfold conducts. cbn [fst snd] in *. destruct c; try discriminate; reflexivity.
Qed.
Lemma concat_nil {T U} (l : list T) : concat (map (fun _ => @nil U) l) = [].
Proof. induction l; [reflexivity|exact IHl]. Qed.
Lemma current_density T S W : Rabs (W - 1) <= 3 / 10 ^ 15 -> 0 < S -> Rabs (T / (W * S) * S - T) <= 4 / 10 ^ 15 * Rabs T.
Proof.
  intros HW HS. assert (B : - (3 / 10 ^ 15) <= W - 1 <= 3 / 10 ^ 15) by (apply Rabs_le_between; exact HW). assert (W0 : 99 / 100 < W) by lra.
  replace (T / (W * S) * S - T) with ((1 - W) / W * T) by (field; lra). rewrite Rabs_mult. apply Rmult_le_compat_r; [apply Rabs_pos|].
  apply Rabs_le. split; [apply (Rmult_le_reg_r W); [lra|]; replace ((1 - W) / W * W) with (1 - W) by (field; lra); lra|].
  apply (Rmult_le_reg_r W); [lra|]. replace ((1 - W) / W * W) with (1 - W) by (field; lra). lra.
Qed.
Lemma current_charges_ok A e cs : mesh_ok (e_mesh e) -> current_charges (backend_numerics A) e = Ok cs ->
  exists parts, q_items cs = concat parts /\ Forall2 (conducts (an_pos A) (e_mesh e)) (e_types e) parts.
Proof.
  intros Hm H. unfold current_charges in H.
  assert (None_case : existsb (fun nc => match snd nc with CURRENT _ => true | _ => false end) (e_types e) = false -> q_items cs = [] ->
    exists parts, q_items cs = concat parts /\ Forall2 (conducts (an_pos A) (e_mesh e)) (e_types e) parts).
  { intros N E. exists (map (fun _ => []) (e_types e)). split; [rewrite E; symmetry; apply concat_nil|apply conducts_none; exact N]. }
  destruct Hm as [_ _ [Wa Wl] _ Gt].
  destruct (arows (m_triangles (e_mesh e))) as [|r0 rs] eqn:ET.
  - injection H as <-. exists (map (fun _ => []) (e_types e)). split; [symmetry; apply concat_nil|].
    clear - Gt. induction (e_types e) as [|[n c] l IH]; cbn [map]; constructor; [|exact IH]. unfold conducts. cbn [fst snd].
    destruct c; try reflexivity. destruct (dget (m_ptriangles (e_mesh e)) n) as [idx|] eqn:D; [|reflexivity].
    exists [], 0. assert (idx = []) as ->; [|cbn; split; [constructor|split; [reflexivity|lra]]].
    apply dget_In in D. destruct idx as [|i1 idx]; [reflexivity|]. exfalso. pose proof (proj2 Gt n _ i1 D (or_introl eq_refl)) as L. cbn in L. lia.
  - destruct (has_current e) eqn:EC; cbn [negb] in H; [|injection H as <-; apply None_case; [exact EC|reflexivity]].
    apply bind_ok in H. destruct H as (tris & Ht & H). apply bind_ok in H. destruct H as (parts & Hp & H). injection H as <-. cbn [q_items]. exists parts. split; [reflexivity|].
    rewrite <- ET in *. apply mapM_ok in Ht, Hp. refine (Forall2_impl_all _ _ _ _ _ Hp). intros [n c] part HP. unfold current_items in HP. unfold conducts. cbn [fst snd] in *.
    destruct c; try (injection HP as <-; reflexivity). destruct (dget (m_ptriangles (e_mesh e)) n) as [idx|]; [|injection HP as <-; reflexivity].
    apply bind_ok in HP. destruct HP as (ss & Hs & HP). injection HP as <-. apply np_take_ok in Hs.
    assert (T : exists ts, Forall2 (triangle_of (an_pos A) (e_mesh e)) idx ts /\ ss = map tri_charge ts).
    { clear - Hs Ht Wl Wa. induction Hs as [|i s idx ss Hi Hs IH]; [exists []; split; [constructor|reflexivity]|]. destruct IH as (ts & I1 & ->).
      destruct (Forall2_nth_r _ _ _ _ _ Ht Hi) as (r & Hr & E). apply bind_ok in E. destruct E as (v & Hv & E). apply np_take_ok in Hv.
      pose proof (nth_error_In _ _ Hr) as Ir. pose proof (Forall2_length _ _ _ Hv) as Lv. destruct (Wl r Ir) as [Q _]. rewrite Q in Lv.
      destruct Wa as [W|[]]; [intros E0; rewrite E0 in Ir; destruct Ir|]. rewrite <- W in Lv.
      destruct v as [|v0 [|v1 [|v2 [|]]]]; try discriminate Lv. injection E as <-.
      exists ((an_pos A v0, an_pos A v1, an_pos A v2) :: ts). split; [constructor; [|exact I1]|cbn [map]; rewrite tri_charge_eq; reflexivity].
      exists r. split; [exact Hr|]. exists [v0; v1; v2]. split; [exact Hv|reflexivity]. }
    destruct T as (ts & T1 & ->). exists ts. eexists. split; [exact T1|]. split; [rewrite map_map; reflexivity|].
    intros P. rewrite Rsum_tri. apply current_density; [apply rule_weight|exact P].
Qed.

(** The current given for a coil is its total current: in a radial problem the charges of the field that describe
    currents are, condition by condition, a uniform density on the triangles of the group, and the density times
    the area of the cross section is the given current (relative error 4e-15 from the tabulated weights). *)
Theorem C63_total_current A o third e0 e f :
  solved_excitation o third e0 = Ok e -> mesh_ok (e_mesh e) -> is_2d (e_mesh e) = true -> is_magnetostatic e = true ->
  solve_direct (backend_numerics A) o third e0 = Ok f ->
  exists parts, q_items (b_cur f) = concat parts /\ Forall2 (conducts (an_pos A) (e_mesh e)) (e_types e) parts.
Proof.
  intros S Hm D2 Mg H. destruct (direct_magnetostatic _ _ _ _ _ _ H S Mg) as (g & Hg & _ & -> & _). destruct (solve_magnetostatic_inv _ _ _ Hg) as (s & cs & _ & Hc & Hf).
  apply solve_matrix_ok in Hf. destruct Hf as (xs & _ & F). inversion F; subst.
  match goal with Q : magnetostatic_field _ _ _ = Ok _ |- _ => apply magnetostatic_field_get in Q; destruct Q as (_ & _ & Q & _) end.
  rewrite (planar _ D2) in *. match goal with Q : b_cur g = cs |- _ => rewrite Q end. exact (current_charges_ok A e cs Hm Hc).
Qed.
Print Assumptions C63_total_current.

(** ** C65 field_at_point and potential_at_point *)
(** A field has electric (magnetic) sources when it has charges of that kind; currents are magnetic. *)
Definition has_electric (f : bem) : Prop := q_items (b_elec f) <> [].
Definition has_magnetic (f : bem) : Prop := q_items (b_mag f) <> [] \/ q_items (b_cur f) <> [].
Theorem C65_automatic_choice f p :
  (has_electric f -> ~ has_magnetic f -> field_at_point f p = Ok (electrostatic_field_at_point f p) /\ potential_at_point f p = Ok (electrostatic_potential_at_point f p)) /\
  (~ has_electric f -> has_magnetic f -> field_at_point f p = Ok (magnetostatic_field_at_point f p) /\ potential_at_point f p = Ok (magnetostatic_potential_at_point f p)) /\
  ((has_electric f <-> has_magnetic f) -> field_at_point f p = Err RuntimeError /\ potential_at_point f p = Err RuntimeError).
Proof.
  unfold has_electric, has_magnetic, field_at_point, potential_at_point, pick, bem_is_electrostatic, bem_is_magnetostatic.
  destruct (q_items (b_elec f)), (q_items (b_mag f)), (q_items (b_cur f)); cbn [length Nat.eqb negb orb andb];
    (split; [intros H N|split; [intros N H|intros H]]); split; try reflexivity; exfalso;
    repeat match goal with Q : _ <-> _ |- _ => destruct Q end; intuition congruence.
Qed.
Print Assumptions C65_automatic_choice.

(** The problems of Props_Matrix (C61_radial_nonvacuous, C62_magnetic_nonvacuous, C62_three_d_nonvacuous) meet the hypotheses;
    in the magnetic one the coil has area 1/2, so that its density is twice its current. *)
Example C63_nonvacuous V K cur : let e := ex_magnetic V K cur in
  is_magnetostatic e = true /\ is_2d (e_mesh e) = true /\ mesh_ok (e_mesh e) /\ In ("coil"%string, CURRENT cur) (e_types e) /\
  exists t, triangle_of ex_dec (e_mesh e) 0 t /\ tarea t = 1 / 2.
Proof.
  cbv zeta. split; [reflexivity|]. split; [reflexivity|]. split; [apply input_okb_ok; vm_compute; reflexivity|]. split; [right; right; left; reflexivity|].
  exists (V3 1 0 0, V3 0 0 1, V3 1 0 1). split.
  - exists [1; 2; 3]%nat. split; [reflexivity|]. exists [(f1, f0, f0); (f0, f0, f1); (f1, f0, f1)]. split; [repeat constructor|reflexivity].
  - unfold tarea. rewrite (norm_unique _ 1); [field|lra|]. unfold dot, cross, vsub. cbn [vx vy vz]. ring.
Qed.
Example C64_nonvacuous : straight (V3 1 0 0, V3 4 0 4, V3 2 0 (4/3), V3 3 0 (8/3)) (V3 1 0 0) (V3 4 0 4) /\ segment_length (V3 1 0 0) (V3 4 0 4) = 5.
Proof.
  split.
  - unfold straight. do 2 f_equal; [f_equal|]; apply vec_eq; cbn; field.
  - unfold segment_length. cbn [vx vz]. replace ((4 - 1) ^ 2 + (4 - 0) ^ 2) with (5 * 5) by ring. apply sqrt_square. lra.
Qed.
Example C65_nonvacuous : let unit := mkcharges TRIANGLE_RULE [(1, [(1, vzero)])] in
  (has_electric (mkbem FieldRadialBEM unit empty_2d empty_3d None) /\ ~ has_magnetic (mkbem FieldRadialBEM unit empty_2d empty_3d None)) /\
  (~ has_electric (mkbem FieldRadialBEM empty_2d empty_2d unit None) /\ has_magnetic (mkbem FieldRadialBEM empty_2d empty_2d unit None)).
Proof. unfold has_electric, has_magnetic. cbn. intuition discriminate. Qed.
