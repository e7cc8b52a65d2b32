(** The solver on an excitation and on the scaled one. *)
From Coq Require Import Reals Lra.
From Verif Require Import Base BaseFacts Float64 OrientModel MeshModel Vec GeomModel ExcitationModel FieldModel FieldFacts SolverModel SolverFacts MotionSolve ScaleModel.
Local Open Scope R_scope.

(** Related if both are values. *)
Definition both {X Y} (P : X -> Y -> Prop) (r : result X) (r' : result Y) : Prop := forall x y, r = Ok x -> r' = Ok y -> P x y.
Lemma both_bind {X X' Y Y'} (P : X -> X' -> Prop) (Q : Y -> Y' -> Prop) r r' k k' :
  both P r r' -> (forall x x', r = Ok x -> r' = Ok x' -> P x x' -> both Q (k x) (k' x')) -> both Q (bind r k) (bind r' k').
Proof. intros H G x y E E'. apply bind_ok in E. apply bind_ok in E'. destruct E as (a & Ea & E), E' as (b & Eb & E'). exact (G a b Ea Eb (H a b Ea Eb) x y E E'). Qed.
Lemma both_mapM {X X' Y Y'} (P : X -> X' -> Prop) (Q : Y -> Y' -> Prop) f f' l l' : Forall2 P l l' ->
  (forall x x', P x x' -> both Q (f x) (f' x')) -> both (Forall2 Q) (mapM f l) (mapM f' l').
Proof.
  intros F H. induction F as [|x x' l l' Hx F IH]; [intros ? ? [= <-] [= <-]; constructor|]. cbn [mapM]. apply both_bind with (P := Q); [apply H, Hx|].
  intros y y' _ _ Hy. apply both_bind with (P := Forall2 Q); [exact IH|]. intros ys ys' _ _ Hys a b [= <-] [= <-]. constructor; assumption.
Qed.
Lemma rmap_bind {X Y Z} (f : X -> Y) (r : result X) (k : Y -> result Z) : bind (rmap f r) k = bind r (fun x => k (f x)).
Proof. destruct r; reflexivity. Qed.
Lemma np_set_map {X Y} (f : X -> Y) l i x : np_set (map f l) i (f x) = rmap (map f) (np_set l i x).
Proof.
  unfold np_set. rewrite map_length. destruct (i <? length l)%nat; [|reflexivity]. cbn [rmap]. f_equal. revert i. induction l as [|a l IH]; intros [|i]; cbn; try reflexivity. rewrite IH. reflexivity.
Qed.
Lemma np_put_map {X Y} (f : X -> Y) idx : forall l v, np_put (map f l) idx (map f v) = rmap (map f) (np_put l idx v).
Proof.
  induction idx as [|i idx IH]; intros l [|x v]; try reflexivity. cbn [map np_put]. rewrite np_set_map, rmap_bind. destruct (np_set l i x); [|reflexivity]. cbn [bind]. apply IH.
Qed.

(** ** Fields of scaled charges *)
Definition scale_bem (kE kM : R) (f : bem) : bem := mkbem (b_class f) (charges_mul kE (b_elec f)) (charges_mul kM (b_mag f)) (charges_mul kM (b_cur f)) (b_bounds f).
Lemma from_cylinder_scale k p a b : from_cylinder p (k * a) (k * b) = vscale k (from_cylinder p a b).
Proof. unfold from_cylinder. cbv zeta. destruct (Rle_dec _ _); apply vec_eq; cbn; unfold Rdiv; ring. Qed.
Lemma field_radial_scale k p c : field_radial p (charges_mul k c) = vscale k (field_radial p c).
Proof. unfold field_radial. cbv zeta. rewrite !charges_mul_evaluate, <- from_cylinder_scale. f_equal; ring. Qed.
Lemma current_field_scale k p c : current_field p (charges_mul k c) = vscale k (current_field p c).
Proof. unfold current_field. cbv zeta. rewrite !charges_mul_evaluate, <- from_cylinder_scale. reflexivity. Qed.
Lemma field_3d_scale k p c : field_3d p (charges_mul k c) = vscale k (field_3d p c).
Proof. unfold field_3d. rewrite !charges_mul_evaluate. apply vec_eq; cbn; ring. Qed.
Lemma scale_bem_field kE kM f : scaled_field kE kM f (scale_bem kE kM f).
Proof.
  split; [reflexivity|]. split; [reflexivity|]. intros p. unfold electrostatic_potential_at_point, magnetostatic_potential_at_point, electrostatic_field_at_point, magnetostatic_field_at_point.
  cbn [scale_bem b_class b_elec b_mag b_cur]. destruct (b_class f).
  - unfold potential_radial. rewrite !charges_mul_evaluate, !field_radial_scale, current_field_scale. repeat split; try reflexivity. vec_ring.
  - unfold potential_3d. rewrite !charges_mul_evaluate, !field_3d_scale. repeat split; reflexivity.
Qed.

Section Scale.
Context (nu : numerics) (Lin : linear_solver (nu_solve nu)) (kE kM : R).
Notation sc := (scaled_condition kE kM).
Notation sx := (scaled_excitation kE kM).
Definition sval (c : condition) (x : R) : R :=
  match c with VOLTAGE_FIXED _ | VOLTAGE_FUN _ => kE * x | CURRENT _ | MAGNETOSTATIC_POT _ => kM * x | DIELECTRIC _ | MAGNETIZABLE _ => x end.
Definition sel (a : option (condition * R)) : option (condition * R) := match a with Some (c, x) => Some (sc c, sval c x) | None => None end.
Lemma scaled_value v c : element_value nu v (sc c) = sval c (element_value nu v c).
Proof. destruct c; reflexivity. Qed.
Lemma scaled_dget n (l : list (string * condition)) : dget (map (fun nc => (fst nc, sc (snd nc))) l) n = option_map sc (dget l n).
Proof. induction l as [|[k c] l IH]; [reflexivity|]. cbn. destruct (String.eqb k n); [reflexivity|exact IH]. Qed.
Lemma scaled_kinds check e : (forall c, check (sc c) = check c) -> same_kinds check (e_types e) (e_types (sx e)).
Proof. intros H. unfold same_kinds. cbn [scaled_excitation e_types]. induction (e_types e); constructor; [split; [reflexivity|apply H]|assumption]. Qed.
Lemma scaled_conditions types vs names : forall acc,
  element_conditions nu (map (fun nc => (fst nc, sc (snd nc))) types) vs names (map sel acc) = rmap (map sel) (element_conditions nu types vs names acc).
Proof.
  induction names as [|[n idx] names IH]; intros acc; [reflexivity|]. cbn [element_conditions]. rewrite scaled_dget. destruct (dget types n) as [c|]; [|reflexivity]. cbn [option_map].
  destruct (np_take vs idx) as [w|]; [|reflexivity]. cbn [bind].
  replace (map (fun v => Some (sc c, element_value nu v (sc c))) w) with (map sel (map (fun v => Some (c, element_value nu v c)) w)) by (rewrite map_map; apply map_ext; intros v; cbn; rewrite scaled_value; reflexivity).
  rewrite np_put_map, rmap_bind. destruct (np_put acc idx _); [|reflexivity]. cbn [bind]. apply IH.
Qed.
Definition ssolver (s : solver) : solver := mksolver (sx (s_exc s)) (s_vertices s) (map sel (s_elements s)).
Lemma scaled_new_solver check e : (forall c, check (sc c) = check c) -> new_solver nu (active_elements check) (sx e) = rmap ssolver (new_solver nu (active_elements check) e).
Proof.
  intros H. unfold new_solver. rewrite (active_same check e (sx e) eq_refl eq_refl (scaled_kinds check e H)). destruct (active_elements check e) as [[vs names]|]; [|reflexivity]. cbn [bind].
  change (e_mesh (sx e)) with (e_mesh e). replace (repeat None (length vs)) with (map sel (repeat None (length vs))) at 1 by (induction vs; cbn; congruence).
  cbn [scaled_excitation e_types]. rewrite scaled_conditions, rmap_bind. destruct (element_conditions nu (e_types e) vs names _); [|reflexivity]. cbn [bind].
  destruct (py_assert _); [|reflexivity]. cbn [bind]. destruct (is_2d (e_mesh e) && negb (is_higher_order (e_mesh e))); reflexivity.
Qed.
Lemma scaled_entry s i j a : matrix_entry nu (ssolver s) i j (sel a) = matrix_entry nu s i j a.
Proof. destruct a as [[[] x]|]; reflexivity. Qed.
Lemma scaled_matrix s : get_matrix nu (ssolver s) = get_matrix nu s.
Proof.
  unfold get_matrix. cbn [ssolver s_vertices s_elements]. rewrite map_length. generalize (arange (length (s_elements s))). induction (s_elements s) as [|a l IH]; intros [|i idx]; cbn [map map2]; try reflexivity.
  rewrite IH. f_equal. apply map_ext. intros j. apply scaled_entry.
Qed.
Lemma scaled_erhs s : electrostatic_rhs (ssolver s) = map (Rmult kE) (electrostatic_rhs s).
Proof. unfold electrostatic_rhs. cbn [ssolver s_elements]. rewrite !map_map. apply map_ext. intros [[[] x]|]; cbn; try reflexivity; ring. Qed.
Lemma scaled_mrhs s cs : magnetostatic_rhs nu (ssolver s) (charges_mul kM cs) = map (Rmult kM) (magnetostatic_rhs nu s cs).
Proof.
  unfold magnetostatic_rhs. cbn [ssolver s_vertices s_elements]. generalize (s_elements s). induction (s_vertices s) as [|v vs IH]; intros [|a l]; cbn [map map2]; try reflexivity. rewrite IH. f_equal.
  destruct a as [[[] x]|]; cbn [sel scaled_condition sval]; try (rewrite Rmult_0_r; reflexivity); try reflexivity.
  cbv zeta. rewrite current_field_scale. destruct (nu_normal nu v) as [n0 n1]. cbn [vx vz vscale]. ring.
Qed.
Lemma scaled_solution A F x k y : nu_solve nu A F = Ok x -> nu_solve nu A (map (Rmult k) F) = Ok y -> y = map (Rmult k) x.
Proof.
  intros H H'. destruct (Lin _ _ _ H) as [[L E] _]. destruct (Lin _ _ _ H') as [_ U]. symmetry. apply U. split; [rewrite map_length; exact L|].
  rewrite <- E. unfold matvec. rewrite map_map. apply map_ext. intros row. apply dotp_scale.
Qed.
Lemma combine_scale k x : forall ss : list source, combine (map (Rmult k) x) ss = map (fun z => (k * fst z, snd z)) (combine x ss).
Proof. induction x as [|a x IH]; intros [|s ss]; cbn; try reflexivity. rewrite IH. reflexivity. Qed.
Lemma scaled_solve_matrix s to_field to_field' k rhs : 
  (forall cs, both (fun f g => g = scale_bem kE kM f) (to_field cs) (to_field' (charges_mul k cs))) ->
  both (Forall2 (fun f g => g = scale_bem kE kM f)) (solve_matrix nu s to_field rhs) (solve_matrix nu (ssolver s) to_field' (map (map (Rmult k)) rhs)).
Proof.
  intros Hf. unfold solve_matrix. rewrite scaled_matrix. cbn [ssolver s_vertices s_exc]. change (e_mesh (sx (s_exc s))) with (e_mesh (s_exc s)).
  assert (Sr : sources nu (ssolver s) = sources nu s) by reflexivity. rewrite Sr. set (rule := mesh_rule _).
  assert (R2 : Forall2 (fun a b => b = map (Rmult k) a) rhs (map (map (Rmult k)) rhs)) by (induction rhs; constructor; auto).
  destruct (s_vertices s) as [|v vs].
  - eapply both_mapM; [exact R2|]. intros f f' _. exact (Hf (mkcharges rule [])).
  - replace (forallb _ (map _ rhs)) with (forallb (fun f : list R => (length f =? length (v :: vs))%nat) rhs) by (clear R2; induction rhs as [|a l IH]; [reflexivity|]; cbn [map forallb]; rewrite map_length, IH; reflexivity).
    destruct (py_assert (forallb _ rhs)); [|intros ? ? ?; discriminate]. cbn [bind]. destruct (py_assert _); [|intros ? ? ?; discriminate]. cbn [bind].
    destruct R2 as [|f f' l l' Hh R2]; [intros ? ? ?; discriminate|].
    apply both_mapM with (P := fun a b => b = map (Rmult k) a); [constructor; [exact Hh|exact R2]|]. intros c1 c2 -> z z' Hz Hz'.
    apply bind_ok in Hz. apply bind_ok in Hz'. destruct Hz as (x & Hx & Hz), Hz' as (y & Hy & Hz'). pose proof (scaled_solution _ _ _ _ _ Hx Hy) as ->.
    refine (Hf _ _ _ Hz _). unfold charges_mul. cbn [q_rule q_items]. rewrite <- combine_scale. exact Hz'.
Qed.
Lemma scaled_efield m cs : both (fun f g => g = scale_bem kE kM f) (electrostatic_field m cs) (electrostatic_field m (charges_mul kE cs)).
Proof.
  intros f g. unfold electrostatic_field, three_d_bem, radial_bem. destruct (is_3d m); [|intros [= <-] [= <-]; reflexivity]. cbn [q_rule charges_mul]. destruct (q_rule cs); [discriminate|]. cbn [empty_3d q_rule]. intros [= <-] [= <-]. reflexivity.
Qed.
Lemma scaled_mfield m cur cs : both (fun f g => g = scale_bem kE kM f) (magnetostatic_field m cur cs) (magnetostatic_field m (charges_mul kM cur) (charges_mul kM cs)).
Proof.
  intros f g. unfold magnetostatic_field, three_d_bem, radial_bem. destruct (is_3d m); [|intros [= <-] [= <-]; reflexivity]. cbn [empty_3d q_rule charges_mul]. destruct (q_rule cs); [discriminate|]. intros [= <-] [= <-]. reflexivity.
Qed.
Lemma both_first {X Y} (P : X -> Y -> Prop) (l : list X) (l' : list Y) : Forall2 P l l' -> both P (np_get l 0) (np_get l' 0).
Proof. intros [|x y a b H F]; intros u v; cbn; [discriminate|]. intros [= <-] [= <-]. exact H. Qed.
Lemma scaled_electrostatic e : both (fun f g => g = scale_bem kE kM f) (solve_electrostatic nu e) (solve_electrostatic nu (sx e)).
Proof.
  unfold solve_electrostatic, electrostatic_solver, get_electrostatic_active_elements. rewrite (scaled_new_solver is_electrostatic_type) by (intros []; reflexivity). rewrite rmap_bind.
  destruct (new_solver nu (active_elements is_electrostatic_type) e) as [s|]; [|intros ? ? ?; discriminate]. cbn [bind]. rewrite scaled_erhs.
  eapply both_bind; [apply (scaled_solve_matrix s _ (electrostatic_field (e_mesh (sx e))) kE [electrostatic_rhs s]); intros; apply scaled_efield|]. intros l l' _ _ F. apply both_first, F.
Qed.
Lemma scaled_items m tris nc : current_items nu m tris (fst nc, sc (snd nc)) = rmap (map (fun x => (kM * fst x, snd x))) (current_items nu m tris nc).
Proof.
  unfold current_items. destruct nc as [n c]. cbn [fst snd]. destruct c; cbn [scaled_condition]; try reflexivity. destruct (dget (m_ptriangles m) n) as [idx|]; [|reflexivity]. destruct (np_take tris idx) as [ts|]; [|reflexivity]. cbn [bind rmap].
  f_equal. rewrite map_map. apply map_ext. intros t. cbn [fst snd]. unfold Rdiv. f_equal. ring.
Qed.
Lemma scaled_currents e : current_charges nu (sx e) = rmap (charges_mul kM) (current_charges nu e).
Proof.
  unfold current_charges. change (e_mesh (sx e)) with (e_mesh e). destruct (arows (m_triangles (e_mesh e))) as [|r0 rows]; [reflexivity|]. set (rs := r0 :: rows). clearbody rs.
  assert (Hc : has_current (sx e) = has_current e).
  { unfold has_current. cbn [scaled_excitation e_types]. induction (e_types e) as [|[n c] l IH]; [reflexivity|]. cbn. rewrite IH. destruct c; reflexivity. }
  rewrite Hc. destruct (negb (has_current e)); [reflexivity|]. match goal with |- context [mapM ?f rs] => destruct (mapM f rs) as [tris|] end; [|reflexivity]. cbn [bind].
  assert (P : mapM (current_items nu (e_mesh e) tris) (e_types (sx e)) = rmap (map (map (fun x => (kM * fst x, snd x)))) (mapM (current_items nu (e_mesh e) tris) (e_types e))).
  { cbn [scaled_excitation e_types]. induction (e_types e) as [|a l IH]; [reflexivity|]. cbn [map mapM]. rewrite scaled_items, IH. destruct (current_items nu (e_mesh e) tris a); [|reflexivity]. cbn [rmap bind].
    match goal with |- context [mapM ?f l] => destruct (mapM f l) end; reflexivity. }
  rewrite P. match goal with |- context [rmap _ (mapM ?f (e_types e))] => destruct (mapM f (e_types e)) as [parts|] end; [|reflexivity]. cbn [rmap bind]. unfold charges_mul. cbn [q_rule q_items]. rewrite concat_map. reflexivity.
Qed.
Lemma scaled_magnetostatic e : both (fun f g => g = scale_bem kE kM f) (solve_magnetostatic nu e) (solve_magnetostatic nu (sx e)).
Proof.
  unfold solve_magnetostatic, magnetostatic_solver, get_magnetostatic_active_elements. rewrite (scaled_new_solver in_magnetostatic_matrix) by (intros []; reflexivity). rewrite rmap_bind.
  destruct (new_solver nu (active_elements in_magnetostatic_matrix) e) as [s|]; [|intros ? ? ?; discriminate]. cbn [bind]. rewrite scaled_currents, rmap_bind. destruct (current_charges nu e) as [cs|]; [|intros ? ? ?; discriminate]. cbn [bind]. rewrite scaled_mrhs.
  eapply both_bind; [apply (scaled_solve_matrix s _ (magnetostatic_field (e_mesh (sx e)) (charges_mul kM cs)) kM [magnetostatic_rhs nu s cs]); intros; apply scaled_mfield|]. intros l l' _ _ F. apply both_first, F.
Qed.
Lemma scaled_add k a b : charges_add (charges_mul k a) (charges_mul k b) = rmap (charges_mul k) (charges_add a b).
Proof.
  unfold charges_add. cbn [charges_mul q_rule q_items]. rewrite !map_map. cbn [snd]. destruct (rule_eqb (q_rule a) (q_rule b)); [|reflexivity]. cbn [andb].
  destruct (same_sources _ _); cbn [rmap]; f_equal; unfold charges_mul; cbn [q_rule q_items]; f_equal.
  - generalize (q_items b). induction (q_items a) as [|x l IH]; intros [|y l']; cbn [map map2]; try reflexivity. rewrite IH. cbn [fst snd]. f_equal. f_equal. ring.
  - rewrite map_app. reflexivity.
Qed.
Lemma scaled_bem_add f g : bem_add (scale_bem kE kM f) (scale_bem kE kM g) = rmap (fun h => scale_bem kE kM h) (bem_add f g).
Proof.
  unfold bem_add. cbn [scale_bem b_elec b_mag b_cur b_class]. rewrite !scaled_add.
  destruct (charges_add (b_elec f) (b_elec g)); [|reflexivity]. cbn [rmap bind].
  destruct (charges_add (b_mag f) (b_mag g)); [|reflexivity]. cbn [rmap bind].
  destruct (charges_add (b_cur f) (b_cur g)); [|reflexivity]. cbn [rmap bind]. destruct (b_class f); reflexivity.
Qed.
Lemma scaled_solved o third e : solved_excitation o third (sx e) = rmap sx (solved_excitation o third e).
Proof.
  unfold solved_excitation. change (e_mesh (sx e)) with (e_mesh e). destruct (is_2d (e_mesh e) && negb (is_higher_order (e_mesh e))); [|reflexivity]. destruct (to_higher_order_mesh o third (e_mesh e)); reflexivity.
Qed.
Lemma scaled_direct o third e : both (fun f g => g = scale_bem kE kM f) (solve_direct nu o third e) (solve_direct nu o third (sx e)).
Proof.
  unfold solve_direct. rewrite scaled_solved, rmap_bind. destruct (solved_excitation o third e) as [u|]; [|intros ? ? ?; discriminate]. cbn [bind].
  assert (E1 : is_electrostatic (sx u) = is_electrostatic u) by (unfold is_electrostatic; cbn [scaled_excitation e_types]; induction (e_types u) as [|[n c] l IH]; [reflexivity|]; cbn; rewrite IH; destruct c; reflexivity).
  assert (E2 : is_magnetostatic (sx u) = is_magnetostatic u) by (unfold is_magnetostatic; cbn [scaled_excitation e_types]; induction (e_types u) as [|[n c] l IH]; [reflexivity|]; cbn; rewrite IH; destruct c; reflexivity).
  rewrite E1, E2. pose proof (scaled_electrostatic u) as A. pose proof (scaled_magnetostatic u) as B.
  destruct (is_magnetostatic u), (is_electrostatic u); cbn [orb andb py_assert bind]; try assumption; [|intros ? ? ?; discriminate].
  eapply both_bind; [exact A|]. intros f f' _ _ ->. eapply both_bind; [exact B|]. intros g g' _ _ ->. rewrite scaled_bem_add. intros x y Hx Hy. rewrite Hx in Hy. injection Hy as <-. reflexivity.
Qed.
End Scale.
