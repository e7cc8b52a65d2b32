(** The solver on two configurations that differ in numbering. *)
From Coq Require Import Reals Lra Lia Permutation FunctionalExtensionality.
From Verif Require Import Base BaseFacts Float64 OrientModel MeshModel MeshFacts Vec GeomModel ExcitationModel FieldModel FieldFacts SolverModel SolverFacts MatrixFacts TracingModel NumberingModel.
Local Open Scope R_scope.

(** ** Points and tables *)
Lemma take_same {A} (l l' : list A) r r' : map (nth_error l') r' = map (nth_error l) r -> np_take l' r' = np_take l r.
Proof.
  unfold np_take. revert r'. induction r as [|i r IH]; intros [|i' r'] H; try discriminate; [reflexivity|]. cbn [map] in H. injection H as H1 H2.
  cbn [mapM]. unfold np_get at 1 3. rewrite H1, (IH r' H2). reflexivity.
Qed.
Lemma mask_mapM {A B} (f f' : A -> result B) l l' m : Forall2 (fun x y => f' y = f x) l l' -> mapM f' (mask l' m) = mapM f (mask l m).
Proof.
  intros H. revert m. induction H as [|x y l l' E H IH]; intros m; [reflexivity|]. destruct m as [|b m]; [reflexivity|]. cbn [mask]. destruct b; [|apply IH]. cbn [mapM]. rewrite E, IH. reflexivity.
Qed.
Lemma mapM_same {A B} (f f' : A -> result B) l l' : Forall2 (fun x y => f' y = f x) l l' -> mapM f' l' = mapM f l.
Proof. induction 1 as [|x y l l' E H IH]; [reflexivity|]. cbn [mapM]. rewrite E, IH. reflexivity. Qed.
Lemma forallb_same {A} (g : A -> bool) l l' : (forall p, In p l' <-> In p l) -> forallb g l' = forallb g l.
Proof. intros H. apply Bool.eq_iff_eq_true. rewrite !forallb_forall. split; intros G x Hx; apply G, H, Hx. Qed.
Lemma existsb_same {A} (g : A -> bool) l l' : (forall p, In p l' <-> In p l) -> existsb g l' = existsb g l.
Proof. intros H. apply Bool.eq_iff_eq_true. rewrite !existsb_exists. split; intros (x & Hx & G); exists x; (split; [apply H, Hx|exact G]). Qed.
Lemma renumbered_kind m m' : renumbered m m' -> is_2d m' = is_2d m /\ is_3d m' = is_3d m /\ is_higher_order m' = is_higher_order m.
Proof. intros (P & _ & _ & W & _). split; [apply forallb_same, P|]. split; [apply existsb_same, P|]. unfold is_higher_order. rewrite W. reflexivity. Qed.

Lemma Forall2_weaken {A B} (Q R : A -> B -> Prop) l l' : (forall a b, Q a b -> R a b) -> Forall2 Q l l' -> Forall2 R l l'.
Proof. intros H. induction 1; constructor; auto. Qed.

(** ** Conditions in another order *)
Lemma put_all_nth {A} (x : A) idx : forall l l', put_all l idx x = Ok l' -> length l' = length l /\ (forall i, In i idx -> (i < length l)%nat) /\
  forall i, nth_error l' i = if memb i idx then (if (i <? length l)%nat then Some x else None) else nth_error l i.
Proof.
  unfold put_all. induction idx as [|k idx IH]; intros l l' H; cbn [map np_put] in H; [injection H as <-; split; [reflexivity|split; [intros i []|reflexivity]]|].
  apply bind_ok in H. destruct H as (l1 & H1 & H). apply np_set_ok in H1. destruct H1 as [Hk ->]. destruct (IH _ _ H) as (L & I & N). rewrite upd_length in *.
  split; [exact L|]. split; [intros i [<-|Hi]; [exact Hk|apply I, Hi]|]. intros i. rewrite N. cbn [memb existsb]. fold (memb i idx). destruct (memb i idx); [rewrite Bool.orb_true_r; reflexivity|].
  rewrite Bool.orb_false_r, nth_error_upd. destruct (Nat.eqb_spec i k) as [->|Ne]; [|try rewrite Bool.andb_false_r; cbn; reflexivity].
  replace (k <? length l)%nat with true by (symmetry; apply Nat.ltb_lt, Hk). reflexivity.
Qed.
Lemma put_all_total {A} (x : A) idx l : (forall i, In i idx -> (i < length l)%nat) -> exists l', put_all l idx x = Ok l'.
Proof. intros H. apply np_put_total; [apply map_length|exact H]. Qed.
Lemma list_nth_ext {A} (l l' : list A) : (forall i, nth_error l i = nth_error l' i) -> l = l'.
Proof.
  revert l'. induction l as [|a l IH]; intros [|b l'] H; [reflexivity|discriminate (H 0%nat)|discriminate (H 0%nat)|]. pose proof (H 0%nat) as E. cbn in E. injection E as ->. f_equal. apply IH. intros i. exact (H (S i)).
Qed.
Lemma put_all_commute {A} (x : A) a b l la lab : put_all l a x = Ok la -> put_all la b x = Ok lab -> exists lb, put_all l b x = Ok lb /\ put_all lb a x = Ok lab.
Proof.
  intros Ha Hb. destruct (put_all_nth x a l la Ha) as (L1 & I1 & N1). destruct (put_all_nth x b la lab Hb) as (L2 & I2 & N2). rewrite L1 in *.
  destruct (put_all_total x b l I2) as [lb Hlb]. destruct (put_all_nth x b l lb Hlb) as (L3 & I3 & N3). destruct (put_all_total x a lb) as [lba Hlba]; [intros i Hi; rewrite L3; apply I1, Hi|].
  destruct (put_all_nth x a lb lba Hlba) as (L4 & I4 & N4). exists lb. split; [exact Hlb|]. rewrite Hlba. f_equal. apply list_nth_ext. intros i. rewrite N4, N2, N3, N1, L3. destruct (memb i a), (memb i b); try reflexivity.
Qed.
Lemma mark_permuted check physicals types types' : Permutation types types' -> forall inactive r, mark_active check physicals types inactive = Ok r -> mark_active check physicals types' inactive = Ok r.
Proof.
  induction 1 as [|[n c] l l' P IH|[n c] [n' c'] l|l1 l2 l3 P1 IH1 P2 IH2]; intros inactive r H; [exact H| | |apply IH2, IH1, H].
  - cbn [mark_active] in *. destruct (check c); [|apply IH, H]. destruct (dget physicals n); [|discriminate]. apply bind_ok in H. destruct H as (i1 & H1 & H). rewrite H1. cbn [bind]. apply IH, H.
  - cbn [mark_active] in *. destruct (check c), (check c'); try exact H; destruct (dget physicals n) as [a|]; destruct (dget physicals n') as [b|]; try discriminate; try exact H;
      try (apply bind_ok in H; destruct H as (i1 & H1 & H); try discriminate).
    apply bind_ok in H. destruct H as (i2 & H2 & H). destruct (put_all_commute _ _ _ _ _ _ H1 H2) as (lb & E1 & E2). rewrite E1. cbn [bind]. rewrite E2. exact H.
Qed.
Lemma dget_permuted {A} (d d' : list (string * A)) k : NoDup (map fst d) -> Permutation d d' -> dget d' k = dget d k.
Proof.
  intros ND P. assert (ND' : NoDup (map fst d')) by (eapply Permutation_NoDup; [apply Permutation_map; exact P|exact ND]).
  destruct (dget d k) as [v|] eqn:E.
  - apply dget_In in E. apply In_dget; [exact ND'|]. apply (Permutation_in _ P), E.
  - destruct (dget d' k) as [v|] eqn:E'; [|reflexivity]. apply dget_In in E'. apply (Permutation_in _ (Permutation_sym P)) in E'. apply (In_dget _ _ _ ND) in E'. congruence.
Qed.
Lemma existsb_permuted {A} (g : A -> bool) l l' : Permutation l l' -> existsb g l' = existsb g l.
Proof. intros P. apply existsb_same. intros p. split; apply Permutation_in; [apply Permutation_sym|]; exact P. Qed.
Lemma mapM_permuted {A B} (f : A -> result B) l l' : Permutation l l' -> forall r, mapM f l = Ok r -> exists r', mapM f l' = Ok r' /\ Permutation r r'.
Proof.
  induction 1 as [|x l l' P IH|x y l|l1 l2 l3 P1 IH1 P2 IH2]; intros r H.
  - exists r. split; [exact H|apply Permutation_refl].
  - cbn [mapM] in *. apply bind_ok in H. destruct H as (a & Ha & H). apply bind_ok in H. destruct H as (t & Ht & H). injection H as <-. destruct (IH t Ht) as (t' & Ht' & P'). rewrite Ha, Ht'. exists (a :: t'). split; [reflexivity|apply perm_skip, P'].
  - cbn [mapM] in *. apply bind_ok in H. destruct H as (a & Ha & H). apply bind_ok in H. destruct H as (t & Ht & H). injection H as <-. apply bind_ok in Ht. destruct Ht as (b & Hb & Ht). apply bind_ok in Ht. destruct Ht as (t2 & Ht2 & E). injection E as <-.
    rewrite Hb, Ha. cbn [bind]. rewrite Ht2. exists (b :: a :: t2). split; [reflexivity|apply perm_swap].
  - destruct (IH1 r H) as (r1 & H1 & Q1). destruct (IH2 r1 H1) as (r2 & H2 & Q2). exists r2. split; [exact H2|eapply Permutation_trans; eassumption].
Qed.
Lemma concat_permuted {A} (l l' : list (list A)) : Permutation l l' -> Permutation (concat l) (concat l').
Proof.
  induction 1; cbn; [apply perm_nil|apply Permutation_app_head; assumption| |eapply Permutation_trans; eassumption].
  rewrite !app_assoc. apply Permutation_app_tail, Permutation_app_comm.
Qed.
Lemma filter_same {A} (g g' : A -> bool) l : (forall a, g' a = g a) -> filter g' l = filter g l.
Proof. intros H. induction l as [|a l IH]; [reflexivity|]. cbn. rewrite H, IH. reflexivity. Qed.

(** ** The solver *)
Section Solve.
  Context (nu : numerics) (e e' : excitation) (P : same_problem e e').
  Lemma types_dget k : dget (e_types e') k = dget (e_types e) k.
  Proof. pose proof P as PP. destruct PP as (_ & _ & ND & Q). apply dget_permuted; assumption. Qed.
  Lemma kinds : is_2d (e_mesh e') = is_2d (e_mesh e) /\ is_3d (e_mesh e') = is_3d (e_mesh e) /\ is_higher_order (e_mesh e') = is_higher_order (e_mesh e).
  Proof. apply renumbered_kind, P. Qed.
  Lemma active_same check r : active_elements check e = Ok r -> active_elements check e' = Ok r.
  Proof.
    pose proof P as PP. destruct PP as ((_ & Ln & Tr & _ & EL & ET) & Sy & ND & Q). unfold active_elements. rewrite Sy.
    assert (G : forall t t' ph, Forall2 (fun r r' => corners (e_mesh e') r' = corners (e_mesh e) r) (arows t) (arows t') ->
      (inactive <- mark_active check ph (e_types e) (repeat true (length (arows t))) ;;
       names <- mapM_dict (np_take (map2 Nat.sub (arange (length (arows t))) (cumsum inactive))) (filter (fun g => match dget (e_types e) (fst g) with Some c => check c | None => false end) ph) ;;
       vertices <- mapM (np_take (m_points (e_mesh e))) (mask (arows t) (map negb inactive)) ;; Ok (vertices, names)) = Ok r ->
      (inactive <- mark_active check ph (e_types e') (repeat true (length (arows t'))) ;;
       names <- mapM_dict (np_take (map2 Nat.sub (arange (length (arows t'))) (cumsum inactive))) (filter (fun g => match dget (e_types e') (fst g) with Some c => check c | None => false end) ph) ;;
       vertices <- mapM (np_take (m_points (e_mesh e'))) (mask (arows t') (map negb inactive)) ;; Ok (vertices, names)) = Ok r).
    { intros t t' ph F H. apply bind_ok in H. destruct H as (ia & H1 & H). apply (mark_permuted _ _ _ _ Q) in H1. rewrite <- (Forall2_length _ _ _ F). rewrite H1. cbn [bind].
      rewrite (filter_same (fun g => match dget (e_types e) (fst g) with Some c => check c | None => false end)) by (intros a; rewrite types_dget; reflexivity).
      rewrite (mask_mapM (np_take (m_points (e_mesh e))) (np_take (m_points (e_mesh e'))) (arows t) (arows t')); [exact H|]. eapply Forall2_weaken; [|exact F]. intros x y E. apply take_same, E. }
    destruct (e_symmetry e); [rewrite EL; apply (G (m_lines (e_mesh e)) (m_lines (e_mesh e'))); exact Ln|rewrite ET; apply (G (m_triangles (e_mesh e)) (m_triangles (e_mesh e'))); exact Tr].
  Qed.
  Lemma conditions_same vs names acc : element_conditions nu (e_types e') vs names acc = element_conditions nu (e_types e) vs names acc.
  Proof. revert acc. induction names as [|[n idx] names IH]; intros acc; [reflexivity|]. cbn [element_conditions]. rewrite types_dget. destruct (dget (e_types e) n); [|reflexivity]. destruct (np_take vs idx); [|reflexivity]. cbn [bind]. destruct (np_put _ _ _); [|reflexivity]. cbn [bind]. apply IH. Qed.
  Lemma solver_same active s : (forall r, active e = Ok r -> active e' = Ok r) -> new_solver nu active e = Ok s -> new_solver nu active e' = Ok (mksolver e' (s_vertices s) (s_elements s)).
  Proof.
    intros HA H. unfold new_solver in *. destruct kinds as (K1 & _ & K3). rewrite K1, K3. apply bind_ok in H. destruct H as ([vs names] & H1 & H). rewrite (HA _ H1). cbn [bind].
    apply bind_ok in H. destruct H as (els & H2 & H). rewrite conditions_same, H2. cbn [bind]. apply bind_ok in H. destruct H as (? & H3 & H). rewrite H3. cbn [bind]. apply bind_ok in H. destruct H as (? & H4 & H). rewrite H4. cbn [bind]. injection H as <-. reflexivity.
  Qed.
  Lemma matrix_same s to_field rhs : s_exc s = e -> solve_matrix nu (mksolver e' (s_vertices s) (s_elements s)) to_field rhs = solve_matrix nu s to_field rhs.
  Proof.
    intros E. destruct kinds as (K1 & K2 & K3). unfold solve_matrix, mesh_rule, sources. cbn [s_vertices s_elements s_exc]. rewrite E, K1, K2, K3. reflexivity.
  Qed.
  Definition same_currents (c c' : charges) : Prop := q_rule c' = q_rule c /\ Permutation (q_items c) (q_items c').
  Lemma current_evaluate_same c c' K : same_currents c c' -> evaluate K c' = evaluate K c.
  Proof.
    intros [_ Q]. unfold evaluate. assert (G : forall l l' : list (R * source), Permutation l l' -> Rsum (map (fun x => fst x * source_sum K (snd x)) l') = Rsum (map (fun x => fst x * source_sum K (snd x)) l)); [|apply G, Q].
    induction 1; cbn; lra.
  Qed.
  Lemma currents_same c : current_charges nu e = Ok c -> exists c', current_charges nu e' = Ok c' /\ same_currents c c'.
  Proof.
    pose proof P as PP. destruct PP as ((_ & _ & Tr & _ & _ & ET) & _ & _ & Q). unfold current_charges. assert (HC : has_current e' = has_current e) by (apply existsb_permuted, Q). rewrite HC.
    assert (R : forall x, same_currents x x) by (intros x; split; [reflexivity|apply Permutation_refl]).
    destruct (arows (m_triangles (e_mesh e))) as [|r rs] eqn:E; destruct (arows (m_triangles (e_mesh e'))) as [|r' rs'] eqn:E'; [eauto|inversion Tr|inversion Tr|].
    destruct (negb (has_current e)); [eauto|]. intros H. apply bind_ok in H. destruct H as (ts & H1 & H). apply bind_ok in H. destruct H as (parts & H2 & H). injection H as <-.
    rewrite (mapM_same (fun r => v <- np_take (m_points (e_mesh e)) r ;; Ok (nu_triangle nu v)) (fun r => v <- np_take (m_points (e_mesh e')) r ;; Ok (nu_triangle nu v)) (r :: rs)) by (eapply Forall2_weaken; [|exact Tr]; intros x y Exy; cbv beta; rewrite (take_same _ _ _ _ Exy); reflexivity).
    rewrite H1. cbn [bind]. assert (CI : forall nc, current_items nu (e_mesh e') ts nc = current_items nu (e_mesh e) ts nc) by (intros nc; unfold current_items; rewrite ET; reflexivity).
    destruct (mapM_permuted _ _ _ Q _ H2) as (parts' & H3 & Q'). exists (mkcharges TRIANGLE_RULE (concat parts')). split; [|split; [reflexivity|apply concat_permuted, Q']].
    replace (mapM (current_items nu (e_mesh e') ts) (e_types e')) with (mapM (current_items nu (e_mesh e) ts) (e_types e')); [rewrite H3; reflexivity|]. clear -CI. induction (e_types e') as [|x l IH]; [reflexivity|]. cbn [mapM]. rewrite CI, IH. reflexivity.
  Qed.
End Solve.

(** ** The solutions *)
Definition nearly (f f' : bem) : Prop :=
  b_class f' = b_class f /\ b_elec f' = b_elec f /\ b_mag f' = b_mag f /\ b_bounds f' = b_bounds f /\ same_currents (b_cur f) (b_cur f').
Lemma nearly_refl f : nearly f f.
Proof. unfold nearly, same_currents. repeat (split; [reflexivity|]). apply Permutation_refl. Qed.
Lemma mapM_related {A B C} (R : B -> C -> Prop) (f : A -> result B) (g : A -> result C) l bs : (forall a b, f a = Ok b -> exists c, g a = Ok c /\ R b c) -> mapM f l = Ok bs -> exists cs, mapM g l = Ok cs /\ Forall2 R bs cs.
Proof.
  intros H. revert bs. induction l as [|a l IH]; intros bs E; cbn [mapM] in *; [injection E as <-; exists []; split; [reflexivity|constructor]|].
  apply bind_ok in E. destruct E as (b & Hb & E). apply bind_ok in E. destruct E as (t & Ht & E). injection E as <-. destruct (H a b Hb) as (c & Hc & Rc). destruct (IH t Ht) as (cs & Hcs & F). rewrite Hc, Hcs. exists (c :: cs). split; [reflexivity|constructor; assumption].
Qed.
Lemma solve_matrix_related (R : bem -> bem -> Prop) nu s tf tf' rhs fs : (forall c f, tf c = Ok f -> exists f', tf' c = Ok f' /\ R f f') ->
  solve_matrix nu s tf rhs = Ok fs -> exists fs', solve_matrix nu s tf' rhs = Ok fs' /\ Forall2 R fs fs'.
Proof.
  intros H. unfold solve_matrix. destruct (s_vertices s) as [|v vs].
  - apply mapM_related. intros a b. apply H.
  - intros E. apply bind_ok in E. destruct E as (? & H1 & E). rewrite H1. cbn [bind]. apply bind_ok in E. destruct E as (? & H2 & E). rewrite H2. cbn [bind]. destruct rhs as [|r rhs]; [discriminate|].
    revert E. apply mapM_related. intros a b E. apply bind_ok in E. destruct E as (y & Hy & E). rewrite Hy. cbn [bind]. apply H, E.
Qed.
Lemma get_related {A B} (R : A -> B -> Prop) l l' i a : Forall2 R l l' -> np_get l i = Ok a -> exists b, np_get l' i = Ok b /\ R a b.
Proof.
  intros F. revert i. induction F as [|x y l l' Q F IH]; intros i H; [destruct i; discriminate|]. destruct i as [|i]; [injection H as <-; exists y; split; [reflexivity|exact Q]|]. exact (IH i H).
Qed.
Lemma new_solver_exc nu active e s : new_solver nu active e = Ok s -> s_exc s = e.
Proof.
  intros H. unfold new_solver in H. apply bind_ok in H. destruct H as ([vs names] & _ & H). apply bind_ok in H. destruct H as (els & _ & H). apply bind_ok in H. destruct H as (? & _ & H). apply bind_ok in H. destruct H as (? & _ & H). injection H as <-. reflexivity.
Qed.
Lemma charges_add_nil a b : q_items a = [] -> charges_add a b = if rule_eqb (q_rule a) (q_rule b) then Ok (mkcharges (q_rule a) (q_items b)) else Err ValueError.
Proof.
  intros H. unfold charges_add. rewrite H. cbn [map]. unfold same_sources. destruct (list_eq_dec _ _ _) as [E|N].
  - destruct (q_items b); [|discriminate]. destruct (rule_eqb _ _); reflexivity.
  - rewrite Bool.andb_false_r. destruct (rule_eqb _ _); reflexivity.
Qed.
Section Direct.
  Context (nu : numerics) (e e' : excitation) (P : same_problem e e').
  Lemma electrostatic_same f : solve_electrostatic nu e = Ok f -> solve_electrostatic nu e' = Ok f.
  Proof.
    intros H. unfold solve_electrostatic in *. apply bind_ok in H. destruct H as (s & H1 & H). pose proof (new_solver_exc _ _ _ _ H1) as E.
    unfold electrostatic_solver in *. rewrite (solver_same nu e e' P get_electrostatic_active_elements s (active_same e e' P is_electrostatic_type) H1). cbn [bind].
    rewrite (matrix_same nu e e' P s _ _ E). replace (electrostatic_field (e_mesh e')) with (electrostatic_field (e_mesh e)); [exact H|]. unfold electrostatic_field. rewrite (proj1 (proj2 (kinds e e' P))). reflexivity.
  Qed.
  Lemma magnetostatic_same f : solve_magnetostatic nu e = Ok f -> exists f', solve_magnetostatic nu e' = Ok f' /\ nearly f f'.
  Proof.
    intros H. unfold solve_magnetostatic in *. apply bind_ok in H. destruct H as (s & H1 & H). pose proof (new_solver_exc _ _ _ _ H1) as E.
    unfold magnetostatic_solver in *. rewrite (solver_same nu e e' P get_magnetostatic_active_elements s (active_same e e' P in_magnetostatic_matrix) H1). cbn [bind].
    apply bind_ok in H. destruct H as (cs & H2 & H). destruct (currents_same nu e e' P cs H2) as (cs' & H3 & SC). rewrite H3. cbn [bind].
    rewrite (matrix_same nu e e' P s _ _ E). replace (magnetostatic_rhs nu (mksolver e' (s_vertices s) (s_elements s)) cs') with (magnetostatic_rhs nu s cs).
    2: { unfold magnetostatic_rhs. cbn [s_vertices s_elements]. f_equal. apply functional_extensionality. intros v. apply functional_extensionality. intros [[[] ?]|]; try reflexivity.
         replace (current_field (nu_center nu v) cs') with (current_field (nu_center nu v) cs); [reflexivity|]. unfold current_field. rewrite !(current_evaluate_same cs cs' _ SC). reflexivity. }
    apply bind_ok in H. destruct H as (fs & H4 & H). destruct (solve_matrix_related nearly nu s (magnetostatic_field (e_mesh e) cs) (magnetostatic_field (e_mesh e') cs') [magnetostatic_rhs nu s cs] fs) as (fs' & H5 & F); [|exact H4|].
    - intros c g. unfold magnetostatic_field. rewrite (proj1 (proj2 (kinds e e' P))). destruct (is_3d (e_mesh e)); [intros Hg; exists g; split; [exact Hg|apply nearly_refl]|].
      intros [= <-]. eexists. split; [reflexivity|]. repeat (split; [reflexivity|]). exact SC.
    - rewrite H5. cbn [bind]. exact (get_related _ _ _ _ _ F H).
  Qed.
  Lemma direct_same o third e0 e0' f : solved_excitation o third e0 = Ok e -> solved_excitation o third e0' = Ok e' -> solve_direct nu o third e0 = Ok f ->
    exists f', solve_direct nu o third e0' = Ok f' /\ nearly f f'.
  Proof.
    intros S S' H. unfold solve_direct in *. rewrite S in H. rewrite S'. cbn [bind] in *. pose proof P as (_ & _ & _ & Q).
    assert (E1 : is_magnetostatic e' = is_magnetostatic e) by (apply existsb_permuted, Q). assert (E2 : is_electrostatic e' = is_electrostatic e) by (apply existsb_permuted, Q). rewrite E1, E2.
    destruct (is_magnetostatic e), (is_electrostatic e); cbn in *; try discriminate.
    - apply bind_ok in H. destruct H as (g & Hg & H). apply bind_ok in H. destruct H as (h & Hh & H). rewrite (electrostatic_same g Hg). cbn [bind]. destruct (magnetostatic_same h Hh) as (h' & Hh' & (N1 & N2 & N3 & N4 & N5)). rewrite Hh'. cbn [bind].
      destruct (electrostatic_parts _ _ _ Hg) as (_ & Gc & _). unfold bem_add in *. rewrite N2, N3. apply bind_ok in H. destruct H as (a & Ha & H). rewrite Ha. cbn [bind]. apply bind_ok in H. destruct H as (b & Hb & H). rewrite Hb. cbn [bind].
      apply bind_ok in H. destruct H as (c & Hc & H). rewrite (charges_add_nil _ (b_cur h) Gc) in Hc. rewrite (charges_add_nil _ (b_cur h') Gc). destruct N5 as [N5 N6]. rewrite N5. destruct (rule_eqb _ _); [|discriminate]. injection Hc as <-. cbn [bind].
      destruct (b_class g); [|discriminate]. injection H as <-. eexists. split; [reflexivity|]. repeat (split; [reflexivity|]). exact N6.
    - apply magnetostatic_same, H.
    - exists f. split; [apply electrostatic_same, H|apply nearly_refl].
  Qed.
End Direct.
Lemma nearly_indistinguishable f f' : nearly f f' -> indistinguishable f f'.
Proof.
  intros (N1 & N2 & N3 & N4 & N5). assert (CF : forall p, current_field p (b_cur f') = current_field p (b_cur f)) by (intros p; unfold current_field; rewrite !(current_evaluate_same _ _ _ N5); reflexivity).
  assert (L : length (q_items (b_cur f')) = length (q_items (b_cur f))) by (symmetry; apply Permutation_length, N5).
  assert (M : forall p, magnetostatic_field_at_point f' p = magnetostatic_field_at_point f p) by (intros p; unfold magnetostatic_field_at_point; rewrite N1, N3, CF; reflexivity).
  assert (MP : forall p, magnetostatic_potential_at_point f' p = magnetostatic_potential_at_point f p) by (intros p; unfold magnetostatic_potential_at_point; rewrite N1, N3; reflexivity).
  assert (E : forall p, electrostatic_field_at_point f' p = electrostatic_field_at_point f p) by (intros p; unfold electrostatic_field_at_point; rewrite N1, N2; reflexivity).
  assert (EP : forall p, electrostatic_potential_at_point f' p = electrostatic_potential_at_point f p) by (intros p; unfold electrostatic_potential_at_point; rewrite N1, N2; reflexivity).
  assert (IE : bem_is_electrostatic f' = bem_is_electrostatic f) by (unfold bem_is_electrostatic; rewrite N2; reflexivity).
  assert (IM : bem_is_magnetostatic f' = bem_is_magnetostatic f).
  { unfold bem_is_magnetostatic. rewrite ?N3, ?N1, ?L. destruct N5 as [_ N6]. destruct (q_items (b_cur f)), (q_items (b_cur f')); try reflexivity; discriminate. }
  assert (T : tracer_field f' = tracer_field f).
  { apply functional_extensionality. intros s. unfold tracer_field. rewrite N1. destruct (b_class f); [|unfold field_3d_traceable; rewrite N2, N3; reflexivity]. unfold field_radial_traceable. rewrite N2, N3, N4, CF. reflexivity. }
  split; [|split].
  - intros p. unfold potential_at_point, field_at_point. rewrite IE, IM, M, MP, E, EP. repeat split; reflexivity.
  - intros i. unfold charge_on_element, area_of_element. rewrite N1, N2. split; reflexivity.
  - intros. unfold tracer_call. rewrite T. reflexivity.
Qed.
