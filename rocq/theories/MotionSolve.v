(** The solver on two configurations that differ by a motion. *)
From Coq Require Import Reals Lra.
From Verif Require Import Base BaseFacts Float64 OrientModel MeshModel Vec GeomModel ExcitationModel FieldModel SolverModel SolverFacts MatrixFacts MotionModel MotionFacts.
Local Open Scope R_scope.

(** ** Related results *)
Definition rres {X Y} (P : X -> Y -> Prop) (r : result X) (r' : result Y) : Prop :=
  match r, r' with Ok x, Ok y => P x y | Err a, Err b => a = b | _, _ => False end.
Definition rmap {X Y} (f : X -> Y) (r : result X) : result Y := match r with Ok x => Ok (f x) | Err a => Err a end.
Lemma rres_bind {X X' Y Y'} (P : X -> X' -> Prop) (Q : Y -> Y' -> Prop) r r' k k' :
  rres P r r' -> (forall x x', r = Ok x -> P x x' -> rres Q (k x) (k' x')) -> rres Q (bind r k) (bind r' k').
Proof. destruct r, r'; cbn; intros H G; try contradiction; [apply G; auto|exact H]. Qed.
Lemma rres_eq {X} (r r' : result X) : rres eq r r' <-> r' = r.
Proof. destruct r, r'; cbn; split; intros H; try contradiction; try discriminate; congruence. Qed.
Lemma rres_map {X Y} (f : X -> Y) r r' : rres (fun x y => y = f x) r r' <-> r' = rmap f r.
Proof. destruct r, r'; cbn; split; intros H; try contradiction; try discriminate; congruence. Qed.
Lemma rres_mapM {X X' Y Y'} (P : X -> X' -> Prop) (Q : Y -> Y' -> Prop) f f' l l' : Forall2 P l l' ->
  (forall x x', P x x' -> rres Q (f x) (f' x')) -> rres (Forall2 Q) (mapM f l) (mapM f' l').
Proof.
  intros F H. induction F as [|x x' l l' Hx F IH]; [constructor|]. cbn [mapM]. apply rres_bind with (P := Q); [apply H, Hx|].
  intros y y' _ Hy. apply rres_bind with (P := Forall2 Q); [exact IH|]. intros ys ys' _ Hys. constructor; assumption.
Qed.
Lemma rres_get {X X'} (P : X -> X' -> Prop) l l' i : Forall2 P l l' -> rres P (np_get l i) (np_get l' i).
Proof.
  intros F. revert i. induction F as [|x x' l l' Hx F IH]; intros i.
  - destruct i; reflexivity.
  - destruct i; [exact Hx|]. apply IH.
Qed.
Lemma rres_take {X X'} (P : X -> X' -> Prop) l l' idx : Forall2 P l l' -> rres (Forall2 P) (np_take l idx) (np_take l' idx).
Proof.
  intros F. unfold np_take. apply rres_mapM with (P := eq); [induction idx; constructor; auto|]. intros i i' <-. apply rres_get, F.
Qed.
Lemma rres_set {X X'} (P : X -> X' -> Prop) l l' i x x' : Forall2 P l l' -> P x x' -> rres (Forall2 P) (np_set l i x) (np_set l' i x').
Proof.
  intros F Hx. unfold np_set. rewrite (Forall2_length _ _ _ F). destruct (i <? length l')%nat; [|reflexivity]. cbn.
  revert i. induction F as [|y y' l l' Hy F IH]; intros [|i]; cbn; constructor; auto.
Qed.
Lemma rres_put {X X'} (P : X -> X' -> Prop) idx : forall l l' v v', Forall2 P l l' -> Forall2 P v v' -> rres (Forall2 P) (np_put l idx v) (np_put l' idx v').
Proof.
  induction idx as [|i idx IH]; intros l l' v v' F G; destruct G as [|x x' v v' Hx G]; try reflexivity; [exact F|].
  cbn [np_put]. apply rres_bind with (P := Forall2 P); [apply rres_set; assumption|]. intros m m' _ Hm. apply IH; assumption.
Qed.
Lemma Forall2_refl_eq {X} (l : list X) : Forall2 eq l l.
Proof. induction l; constructor; auto. Qed.

Section Solve.
Context (nu : numerics) (pos : point -> vec3) (T : vec3 -> vec3) (e e' : excitation).
Context (M : moved_excitation pos T e e') (D2 : is_2d (e_mesh e') = is_2d (e_mesh e)) (D3 : is_3d (e_mesh e') = is_3d (e_mesh e)).
Context (good : list point -> Prop).
Definition rv (v v' : list point) : Prop := good v /\ Forall2 (fun p p' => pos p' = T (pos p)) v v'.
Definition needs_flux (c : condition) : bool := match c with DIELECTRIC _ | MAGNETIZABLE _ => true | _ => false end.
Definition magnetized (v : list point) (cs : charges) : R :=
  let h := current_field (nu_center nu v) cs in vx h * fst (nu_normal nu v) + vz h * snd (nu_normal nu v).
Context (Rows : forall r v, In r (arows (match e_symmetry e with RADIAL => m_lines (e_mesh e) | THREE_D => m_triangles (e_mesh e) end)) ->
                  np_take (m_points (e_mesh e)) r = Ok v -> good v).
Context (Center : forall v v', rv v v' -> nu_center nu v' = T (nu_center nu v)).
Context (Source : forall v v', rv v v' -> (if is_2d (e_mesh e) then nu_line nu else nu_triangle nu) v' =
                     moved_source T ((if is_2d (e_mesh e) then nu_line nu else nu_triangle nu) v)).
Context (Pot : forall vs vs' i j, Forall2 rv vs vs' -> nu_potential nu vs' i j = nu_potential nu vs i j).
Context (Flux : (forall n c, In (n, c) (e_types e) -> needs_flux c = false) \/
   ((forall K vs vs' i j, Forall2 rv vs vs' -> nu_flux nu K vs' i j = nu_flux nu K vs i j) /\
    (forall v v' cs, rv v v' -> current_charges nu e = Ok cs -> magnetized v' (moved_charges T cs) = magnetized v cs))).
Context (Currents : has_current e = false \/ forall v v', Forall2 (fun p p' => pos p' = T (pos p)) v v' -> nu_triangle nu v' = moved_source T (nu_triangle nu v)).
Context (Inj : forall a b, T a = T b -> a = b).

Notation ctype := (fun a b : string * condition => fst b = fst a /\ moved_condition T (snd a) (snd b)).
Let types : Forall2 ctype (e_types e) (e_types e').
Proof. apply M. Qed.
Let sym : e_symmetry e' = e_symmetry e.
Proof. apply M. Qed.
Let pts : Forall2 (fun p p' => pos p' = T (pos p)) (m_points (e_mesh e)) (m_points (e_mesh e')).
Proof. apply M. Qed.
Let els : m_lines (e_mesh e') = m_lines (e_mesh e) /\ m_triangles (e_mesh e') = m_triangles (e_mesh e) /\
  m_plines (e_mesh e') = m_plines (e_mesh e) /\ m_ptriangles (e_mesh e') = m_ptriangles (e_mesh e).
Proof. apply M. Qed.

Lemma moved_check (check : condition -> bool) (Hc : forall f f', check (VOLTAGE_FUN f) = check (VOLTAGE_FUN f')) c c' : moved_condition T c c' -> check c' = check c.
Proof. destruct c, c'; cbn; intros H; try contradiction; try (injection H as ->); try discriminate; auto. Qed.
Lemma moved_kinds check : (forall f f', check (VOLTAGE_FUN f) = check (VOLTAGE_FUN f')) -> same_kinds check (e_types e) (e_types e').
Proof. intros Hc. unfold same_kinds. refine (Forall2_impl_all _ _ _ _ _ types). intros a b [H1 H2]. split; [exact H1|apply moved_check; assumption]. Qed.
Lemma moved_exists (check : condition -> bool) : (forall f f', check (VOLTAGE_FUN f) = check (VOLTAGE_FUN f')) ->
  existsb (fun nc : string * condition => check (snd nc)) (e_types e') = existsb (fun nc : string * condition => check (snd nc)) (e_types e).
Proof. intros Hc. pose proof types as Ty. revert Ty. generalize (e_types e), (e_types e'). intros k k' Ty. induction Ty as [|a b l l' [_ H] F IH]; [reflexivity|]. cbn. rewrite IH, (moved_check check Hc _ _ H). reflexivity. Qed.

Lemma mask_in {X} (l : list X) : forall m x, In x (mask l m) -> In x l.
Proof. induction l as [|a l IH]; intros [|b m] x; cbn; try contradiction. destruct b; cbn; intros H; [destruct H as [->|H]|]; eauto. Qed.
Lemma moved_active check : (forall f f', check (VOLTAGE_FUN f) = check (VOLTAGE_FUN f')) ->
  rres (fun a b => Forall2 rv (fst a) (fst b) /\ snd b = snd a) (active_elements check e) (active_elements check e').
Proof.
  intros Hc. set (u := mkexc (e_mesh e') (e_electrodes e') (e_types e) (e_symmetry e')).
  rewrite (active_same check u e' eq_refl eq_refl (moved_kinds check Hc)). unfold active_elements. cbn [u e_mesh e_symmetry e_types]. rewrite sym.
  destruct els as (-> & -> & -> & ->).
  set (ep := match e_symmetry e with RADIAL => _ | THREE_D => _ end).
  assert (Rows' : forall r v, In r (arows (fst ep)) -> np_take (m_points (e_mesh e)) r = Ok v -> good v) by (intros r v; unfold ep; specialize (Rows r v); destruct (e_symmetry e); exact Rows).
  destruct ep as [elements physicals]. cbn [fst] in Rows'.
  apply rres_bind with (P := eq); [apply rres_eq; reflexivity|]. intros fl fl' _ <-.
  apply rres_bind with (P := eq); [apply rres_eq; reflexivity|]. intros nm nm' _ <-.
  apply rres_bind with (P := Forall2 rv); [|intros vs vs' _ H; cbn; split; [exact H|reflexivity]].
  apply rres_mapM with (P := fun r r' => r = r' /\ In r (arows elements)).
  - assert (G : forall l : list row, (forall r, In r l -> In r (arows elements)) -> Forall2 (fun r r' => r = r' /\ In r (arows elements)) l l).
    { induction l as [|r l IH]; intros H; constructor; [split; [reflexivity|apply H; left; reflexivity]|]. apply IH. intros x Hx. apply H. right. exact Hx. }
    apply G. intros r. apply mask_in.
  - intros r r' [<- Hr]. pose proof (rres_take _ _ _ r pts) as H.
    destruct (np_take (m_points (e_mesh e)) r) eqn:Er; destruct (np_take (m_points (e_mesh e')) r); try contradiction; [|exact H].
    split; [exact (Rows' _ _ Hr Er)|exact H].
Qed.

Definition erel (a b : option (condition * R)) : Prop :=
  match a, b with
  | None, None => True
  | Some (c, x), Some (c', x') => moved_condition T c c' /\ x' = x /\ exists n, In (n, c) (e_types e)
  | _, _ => False
  end.
Lemma moved_dget n l l' : Forall2 ctype l l' -> match dget l n, dget l' n with Some c, Some c' => moved_condition T c c' | None, None => True | _, _ => False end.
Proof.
  induction 1 as [|[k c] [k' c'] l l' [H1 H2] F IH]; [exact I|]. cbn [fst snd] in *. subst k'. cbn [dget]. destruct (String.eqb k n); [exact H2|exact IH].
Qed.
Lemma dget_In {X} (l : list (string * X)) n c : dget l n = Some c -> In (n, c) l.
Proof. induction l as [|[k x] l IH]; cbn; [discriminate|]. destruct (String.eqb_spec k n) as [->|]; [intros [= ->]; left; reflexivity|intros H; right; auto]. Qed.
Lemma moved_value c c' v v' : moved_condition T c c' -> rv v v' -> element_value nu v' c' = element_value nu v c.
Proof. intros Hc Hv. destruct c, c'; cbn in *; try contradiction; try (injection Hc as ->); try discriminate; auto. rewrite (Center _ _ Hv). apply Hc. Qed.
Lemma moved_conditions vs vs' names : Forall2 rv vs vs' -> forall acc acc', Forall2 erel acc acc' ->
  rres (Forall2 erel) (element_conditions nu (e_types e) vs names acc) (element_conditions nu (e_types e') vs' names acc').
Proof.
  intros V. induction names as [|[n idx] names IH]; intros acc acc' Ha; [exact Ha|]. cbn [element_conditions].
  pose proof (moved_dget n _ _ types) as H. pose proof (dget_In (e_types e) n) as Hin. destruct (dget (e_types e) n) as [c|], (dget (e_types e') n) as [c'|]; try contradiction; [|reflexivity].
  apply rres_bind with (P := Forall2 rv); [apply rres_take, V|]. intros w w' _ W.
  apply rres_bind with (P := Forall2 erel); [|intros a a' _ Ha'; apply IH, Ha'].
  apply rres_put; [exact Ha|]. clear - W H Hin Center. induction W as [|v v' w w' Hv W IHw]; cbn; constructor; [|exact IHw].
  split; [exact H|]. split; [apply moved_value; assumption|]. exists n. apply Hin. reflexivity.
Qed.
Definition srel (s s' : solver) : Prop := s_exc s = e /\ s_exc s' = e' /\ Forall2 rv (s_vertices s) (s_vertices s') /\ Forall2 erel (s_elements s) (s_elements s').
Lemma moved_solver check : (forall f f', check (VOLTAGE_FUN f) = check (VOLTAGE_FUN f')) ->
  rres srel (new_solver nu (active_elements check) e) (new_solver nu (active_elements check) e').
Proof.
  intros Hc. unfold new_solver. apply rres_bind with (P := fun a b => Forall2 rv (fst a) (fst b) /\ snd b = snd a); [apply moved_active, Hc|].
  intros [vs names] [vs' names'] _ [V N]. cbn [fst snd] in V, N. subst names'.
  apply rres_bind with (P := Forall2 erel).
  - apply moved_conditions; [exact V|]. rewrite (Forall2_length _ _ _ V). clear. induction (length vs'); cbn; constructor; [exact I|assumption].
  - intros el el' _ E. cbv zeta. assert (Ho : is_higher_order (e_mesh e') = is_higher_order (e_mesh e)) by (unfold is_higher_order; rewrite (proj1 els); reflexivity).
    rewrite D2, Ho. apply rres_bind with (P := eq); [apply rres_eq; reflexivity|]. intros _ _ _ _.
    apply rres_bind with (P := eq); [apply rres_eq; reflexivity|]. intros _ _ _ _. repeat split; assumption.
Qed.
Lemma moved_entry s s' i j a b : srel s s' -> erel a b -> matrix_entry nu s' i j b = matrix_entry nu s i j a.
Proof.
  intros (_ & _ & V & _) H. destruct a as [[c x]|], b as [[c' x']|]; try contradiction; [|reflexivity].
  destruct H as (Hc & -> & n & Hn). unfold matrix_entry.
  destruct c, c'; cbn in Hc; try contradiction; try (injection Hc as ->); try discriminate; try reflexivity; try (apply Pot, V);
    (destruct Flux as [F|[F _]]; [apply F in Hn; discriminate|apply F, V]).
Qed.
Lemma map2_rel {X X' Y} (P : X -> X' -> Prop) (f g : nat -> _) l l' : Forall2 P l l' -> (forall (i : nat) x x', P x x' -> g i x' = f i x :> Y) ->
  forall idx, map2 g idx l' = map2 f idx l.
Proof. intros F H. induction F as [|x x' l l' Hx F IH]; intros [|i idx]; cbn; [reflexivity..|]. rewrite (H i _ _ Hx), IH. reflexivity. Qed.
Lemma moved_matrix s s' : srel s s' -> get_matrix nu s' = get_matrix nu s.
Proof.
  intros S. pose proof S as (_ & _ & V & E). unfold get_matrix. rewrite <- (Forall2_length _ _ _ V), <- (Forall2_length _ _ _ E).
  apply (map2_rel erel); [exact E|]. intros i x x' Hx. apply map_ext. intros j. apply moved_entry; assumption.
Qed.
Lemma moved_rhs s s' : srel s s' -> electrostatic_rhs s' = electrostatic_rhs s.
Proof.
  intros (_ & _ & _ & E). unfold electrostatic_rhs. induction E as [|a b l l' H E IH]; [reflexivity|]. cbn [map]. rewrite IH. f_equal.
  destruct a as [[c x]|], b as [[c' x']|]; try contradiction; [|reflexivity]. destruct H as (Hc & -> & _).
  destruct c, c'; cbn in Hc; try contradiction; try discriminate; reflexivity.
Qed.
Lemma moved_mag_rhs s s' cs : srel s s' -> current_charges nu e = Ok cs -> magnetostatic_rhs nu s' (moved_charges T cs) = magnetostatic_rhs nu s cs.
Proof.
  intros (_ & _ & V & E) Hcs. unfold magnetostatic_rhs. revert V. generalize (s_vertices s), (s_vertices s'). intros vs vs' V. revert E.
  generalize (s_elements s), (s_elements s'). induction V as [|v v' vs vs' Hv V IH]; intros l l' E; [destruct E; reflexivity|].
  destruct E as [|a b l l' H E]; [reflexivity|]. cbn [map2]. rewrite (IH _ _ E). f_equal.
  destruct a as [[c x]|], b as [[c' x']|]; try contradiction; [|reflexivity]. destruct H as (Hc & -> & n & Hn).
  destruct c, c'; cbn in Hc; try contradiction; try (injection Hc as ->); try discriminate; try reflexivity.
  destruct Flux as [F|[_ F]]; [apply F in Hn; discriminate|]. specialize (F _ _ _ Hv Hcs). unfold magnetized in F.
  destruct (nu_normal nu v) as [n0 n1], (nu_normal nu v') as [n0' n1']. cbn [fst snd] in F. rewrite F. reflexivity.
Qed.
Lemma moved_sources s s' : srel s s' -> sources nu s' = map (moved_source T) (sources nu s).
Proof.
  intros (E1 & E2 & V & _). unfold sources. rewrite E1, E2, D2. rewrite map_map. induction V as [|v v' vs vs' Hv V IH]; [reflexivity|]. cbn [map]. rewrite IH, (Source _ _ Hv). reflexivity.
Qed.
Lemma combine_map_r {X Y Z} (f : Y -> Z) (l : list X) : forall m, combine l (map f m) = map (fun x => (fst x, f (snd x))) (combine l m).
Proof. induction l as [|x l IH]; intros [|y m]; cbn; [reflexivity..|]. rewrite IH. reflexivity. Qed.
Lemma moved_solve_matrix s s' to_field to_field' rhs : srel s s' ->
  (forall cs, to_field' (moved_charges T cs) = rmap (moved_bem T) (to_field cs)) ->
  solve_matrix nu s' to_field' rhs = rmap (map (moved_bem T)) (solve_matrix nu s to_field rhs).
Proof.
  intros S Hf. pose proof S as (E1 & E2 & V & _). unfold solve_matrix. rewrite (moved_matrix _ _ S), (moved_sources _ _ S), E1, E2.
  assert (Hl : length (s_vertices s') = length (s_vertices s)) by (symmetry; exact (Forall2_length _ _ _ V)).
  assert (Ho : is_higher_order (e_mesh e') = is_higher_order (e_mesh e)) by (unfold is_higher_order; rewrite (proj1 els); reflexivity).
  assert (G : forall X (g g' : X -> result bem) l, (forall x, g' x = rmap (moved_bem T) (g x)) -> mapM g' l = rmap (map (moved_bem T)) (mapM g l)).
  { intros X g g' l H. induction l as [|x l IH]; [reflexivity|]. cbn [mapM]. rewrite H, IH. destruct (g x); [|reflexivity]. cbn. destruct (mapM g l); reflexivity. }
  unfold mesh_rule. rewrite D2, D3, Ho, Hl. clear V.
  destruct (s_vertices s) as [|v vs], (s_vertices s') as [|v' vs']; try discriminate.
  - apply G. intros _. rewrite <- Hf. reflexivity.
  - clear Hl. destruct (py_assert (forallb _ rhs)); [|reflexivity]. cbn [bind]. destruct (py_assert _); [|reflexivity]. cbn [bind].
    destruct rhs as [|r rhs]; [reflexivity|]. apply G. intros f.
    destruct (nu_solve nu (get_matrix nu s) f); [|reflexivity]. cbn [bind]. rewrite <- Hf. unfold moved_charges. cbn [q_rule q_items]. rewrite combine_map_r. reflexivity.
Qed.
Lemma moved_electrostatic_field cs : electrostatic_field (e_mesh e') (moved_charges T cs) = rmap (moved_bem T) (electrostatic_field (e_mesh e) cs).
Proof. unfold electrostatic_field, three_d_bem, radial_bem. rewrite D3. destruct (is_3d (e_mesh e)); [|reflexivity]. cbn [q_rule moved_charges]. destruct (q_rule cs); reflexivity. Qed.
Lemma moved_magnetostatic_field cur cs : magnetostatic_field (e_mesh e') (moved_charges T cur) (moved_charges T cs) = rmap (moved_bem T) (magnetostatic_field (e_mesh e) cur cs).
Proof. unfold magnetostatic_field, three_d_bem, radial_bem. rewrite D3. destruct (is_3d (e_mesh e)); [|reflexivity]. cbn [q_rule moved_charges empty_3d]. destruct (q_rule cs); reflexivity. Qed.
Lemma moved_first fs : (l <- rmap (map (moved_bem T)) fs ;; np_get l 0) = rmap (moved_bem T) (l <- fs ;; np_get l 0).
Proof. destruct fs as [[|f fs]|]; reflexivity. Qed.
Lemma moved_electrostatic : solve_electrostatic nu e' = rmap (moved_bem T) (solve_electrostatic nu e).
Proof.
  unfold solve_electrostatic. pose proof (moved_solver is_electrostatic_type ltac:(reflexivity)) as S. fold (electrostatic_solver nu e) in S. 
  unfold electrostatic_solver, get_electrostatic_active_elements in *.
  destruct (new_solver nu (active_elements is_electrostatic_type) e) as [s|], (new_solver nu (active_elements is_electrostatic_type) e') as [s'|]; try contradiction; [|cbn in S |- *; congruence].
  cbn [bind rres] in *. rewrite (moved_rhs _ _ S), (moved_solve_matrix s s' (electrostatic_field (e_mesh e))); [apply moved_first|exact S|]. intros cs. apply moved_electrostatic_field.
Qed.

(** ** Currents *)
Lemma moved_area t : source_sum (fun _ => 1) (moved_source T t) = source_sum (fun _ => 1) t.
Proof. apply source_sum_moved. reflexivity. Qed.
Lemma rmap_take {X Y} (f : X -> Y) l idx : np_take (map f l) idx = rmap (map f) (np_take l idx).
Proof.
  apply rres_map. assert (F : Forall2 (fun x y => y = f x) l (map f l)) by (induction l; constructor; auto).
  pose proof (rres_take _ _ _ idx F) as H. destruct (np_take l idx), (np_take (map f l) idx); try exact H. cbn in *.
  induction H as [|x y l1 l2 Hx H IH]; cbn; [reflexivity|]. cbn in Hx. congruence.
Qed.
Lemma moved_items tris nc nc' : ctype nc nc' -> current_items nu (e_mesh e') (map (moved_source T) tris) nc' =
  rmap (map (fun x => (fst x, moved_source T (snd x)))) (current_items nu (e_mesh e) tris nc).
Proof.
  intros [H1 H2]. unfold current_items. destruct nc as [n c], nc' as [n' c']. cbn [fst snd] in *. subst n'. destruct els as (_ & _ & _ & ->).
  destruct c, c'; cbn in H2; try contradiction; try (injection H2 as ->); try discriminate; try reflexivity.
  destruct (dget (m_ptriangles (e_mesh e)) n) as [idx|]; [|reflexivity]. rewrite rmap_take. destruct (np_take tris idx) as [ts|]; [|reflexivity]. cbn [bind rmap].
  f_equal. rewrite !map_map. cbn [fst snd].
  replace (map (fun x => source_sum (fun _ => 1) (moved_source T x)) ts) with (map (source_sum (fun _ => 1)) ts); [reflexivity|].
  apply map_ext. intros t. symmetry. apply moved_area.
Qed.
Lemma moved_currents : current_charges nu e' = rmap (moved_charges T) (current_charges nu e).
Proof.
  unfold current_charges. assert (Hc : has_current e' = has_current e) by (apply (moved_exists (fun c => match c with CURRENT _ => true | _ => false end)); reflexivity).
  rewrite Hc. destruct els as (_ & -> & _ & _). destruct (arows (m_triangles (e_mesh e))) as [|r0 rows]; [reflexivity|].
  destruct (has_current e) eqn:Hcur; [|reflexivity]. cbn [negb]. destruct Currents as [C|C]; [discriminate|].
  set (rs := r0 :: rows). clearbody rs.
  assert (G : mapM (fun r => v <- np_take (m_points (e_mesh e')) r ;; Ok (nu_triangle nu v)) rs =
    rmap (map (moved_source T)) (mapM (fun r => v <- np_take (m_points (e_mesh e)) r ;; Ok (nu_triangle nu v)) rs)).
  { induction rs as [|r rs IH]; [reflexivity|]. cbn [mapM]. rewrite IH. pose proof (rres_take _ _ _ r pts) as H.
    destruct (np_take (m_points (e_mesh e)) r), (np_take (m_points (e_mesh e')) r); try contradiction; cbn [bind rres rmap] in *; [|congruence].
    rewrite (C _ _ H). match goal with |- context [mapM ?f rs] => destruct (mapM f rs) end; reflexivity. }
  rewrite G. match goal with |- context [rmap _ (mapM ?f rs)] => destruct (mapM f rs) as [tris|]; [|reflexivity] end. cbn [bind rmap].
  assert (P : mapM (current_items nu (e_mesh e') (map (moved_source T) tris)) (e_types e') =
    rmap (map (map (fun x => (fst x, moved_source T (snd x))))) (mapM (current_items nu (e_mesh e) tris) (e_types e))).
  { pose proof types as Ty. revert Ty. generalize (e_types e), (e_types e'). intros k k' Ty. induction Ty as [|a b l l' H F IH]; [reflexivity|]. cbn [mapM]. rewrite (moved_items _ _ _ H), IH.
    destruct (current_items nu (e_mesh e) tris a); [|reflexivity]. cbn [rmap bind]. match goal with |- context [mapM ?f l] => destruct (mapM f l) end; reflexivity. }
  rewrite P. match goal with |- context [rmap _ (mapM ?f (e_types e))] => destruct (mapM f (e_types e)) as [parts|]; [|reflexivity] end. cbn [rmap bind]. unfold moved_charges. cbn [q_rule q_items]. rewrite concat_map. reflexivity.
Qed.
Lemma moved_magnetostatic : solve_magnetostatic nu e' = rmap (moved_bem T) (solve_magnetostatic nu e).
Proof.
  unfold solve_magnetostatic. pose proof (moved_solver in_magnetostatic_matrix ltac:(reflexivity)) as S.
  unfold magnetostatic_solver, get_magnetostatic_active_elements in *.
  destruct (new_solver nu (active_elements in_magnetostatic_matrix) e) as [s|], (new_solver nu (active_elements in_magnetostatic_matrix) e') as [s'|]; try contradiction; [|cbn in S |- *; congruence].
  cbn [bind rres] in *. rewrite moved_currents. pose proof (fun cs => moved_mag_rhs s s' cs S) as MR. pose proof (moved_solve_matrix s s') as MM. destruct (current_charges nu e) as [cs|] eqn:Hcs; [|reflexivity]. cbn [bind rmap].
  rewrite (MR _ eq_refl), (MM (magnetostatic_field (e_mesh e) cs)); [apply moved_first|exact S|]. intros x. apply moved_magnetostatic_field.
Qed.

(** ** Both *)
Lemma moved_source_inj s : forall s', moved_source T s = moved_source T s' -> s = s'.
Proof.
  induction s as [|[j p] s IH]; intros [|[j' p'] s']; cbn; try discriminate; [reflexivity|]. intros H. injection H as -> Hp H. apply Inj in Hp. subst. f_equal. apply IH, H.
Qed.
Lemma map_inj {X Y} (f : X -> Y) : (forall a b, f a = f b -> a = b) -> forall l l', map f l = map f l' -> l = l'.
Proof. intros H. induction l as [|a l IH]; intros [|b l']; cbn; try discriminate; [reflexivity|]. intros G. injection G as G1 G2. f_equal; auto. Qed.
Lemma moved_same a b : same_sources (map snd (q_items (moved_charges T a))) (map snd (q_items (moved_charges T b))) = same_sources (map snd (q_items a)) (map snd (q_items b)).
Proof.
  cbn [moved_charges q_items]. rewrite !map_map. cbn [snd]. rewrite <- !(map_map snd (moved_source T)). unfold same_sources.
  set (dec := list_eq_dec (list_eq_dec jac_pos_eq_dec)). clearbody dec.
  destruct (dec (map snd (q_items a)) (map snd (q_items b))) as [E|N].
  - rewrite E. match goal with |- context [dec ?x ?x] => destruct (dec x x) as [|N]; [reflexivity|contradiction N; reflexivity] end.
  - match goal with |- context [dec ?x ?y] => destruct (dec x y) as [H|]; [|reflexivity] end. apply (map_inj (moved_source T)) in H; [contradiction|]. intros x y. apply moved_source_inj.
Qed.
Lemma moved_add a b : charges_add (moved_charges T a) (moved_charges T b) = rmap (moved_charges T) (charges_add a b).
Proof.
  unfold charges_add. rewrite moved_same. cbn [moved_charges q_rule]. destruct (rule_eqb (q_rule a) (q_rule b)); [|reflexivity]. cbn [andb].
  destruct (same_sources _ _); cbn [rmap]; f_equal; unfold moved_charges; cbn [q_rule q_items]; f_equal.
  - generalize (q_items b). induction (q_items a) as [|x l IH]; intros [|y l']; cbn; [reflexivity..|]. rewrite IH. reflexivity.
  - rewrite map_app. reflexivity.
Qed.
Lemma moved_bem_add f g : bem_add (moved_bem T f) (moved_bem T g) = rmap (moved_bem T) (bem_add f g).
Proof.
  unfold bem_add. cbn [moved_bem b_elec b_mag b_cur b_class]. rewrite !moved_add.
  destruct (charges_add (b_elec f) (b_elec g)); [|reflexivity]. cbn [rmap bind].
  destruct (charges_add (b_mag f) (b_mag g)); [|reflexivity]. cbn [rmap bind].
  destruct (charges_add (b_cur f) (b_cur g)); [|reflexivity]. cbn [rmap bind]. destruct (b_class f); reflexivity.
Qed.
Lemma moved_solved o third e0 e0' : solved_excitation o third e0 = Ok e -> solved_excitation o third e0' = Ok e' ->
  solve_direct nu o third e0' = rmap (moved_bem T) (solve_direct nu o third e0).
Proof.
  intros H H'. unfold solve_direct. rewrite H, H'. cbn [bind].
  assert (E1 : is_electrostatic e' = is_electrostatic e) by (apply (moved_exists (fun c => match c with VOLTAGE_FIXED _ | VOLTAGE_FUN _ => true | _ => false end)); reflexivity).
  assert (E2 : is_magnetostatic e' = is_magnetostatic e) by (apply (moved_exists (fun c => match c with MAGNETOSTATIC_POT _ | CURRENT _ => true | _ => false end)); reflexivity).
  rewrite E1, E2, moved_electrostatic, moved_magnetostatic.
  destruct (is_magnetostatic e), (is_electrostatic e); try reflexivity. cbn [orb andb py_assert bind].
  destruct (solve_electrostatic nu e) as [f|]; [|reflexivity]. cbn [rmap bind]. destruct (solve_magnetostatic nu e) as [g|]; [|reflexivity]. cbn [rmap bind]. apply moved_bem_add.
Qed.
End Solve.
