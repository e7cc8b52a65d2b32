(** Facts about the direct solver and superposition. *)
From Coq Require Import Reals Lra.
From Verif Require Import Base BaseFacts Float64 OrientModel MeshModel MeshSpec MeshFacts MeshOps Vec GeomModel OutwardFacts
  ExcitationModel ExcitationFacts FieldModel FieldFacts SolverModel Props_Excitation.
Local Open Scope R_scope.

(** ** Sums *)
Definition dotp (a b : list R) : R := Rsum (map2 Rmult a b).
Definition matvec (A : list (list R)) (x : list R) : list R := map (fun row => dotp row x) A.
Definition vplus (a b : list R) : list R := map2 Rplus a b.
Definition lincomb (N : nat) (l : list (R * list R)) : list R :=
  fold_right (fun wx acc => vplus (map (Rmult (fst wx)) (snd wx)) acc) (repeat 0 N) l.

Lemma map2_length {A B C} (f : A -> B -> C) l : forall m, length (map2 f l m) = Nat.min (length l) (length m).
Proof. induction l as [|a l IH]; intros [|b m]; simpl; auto. Qed.
Lemma lincomb_length N l : Forall (fun wx => length (snd wx) = N) l -> length (lincomb N l) = N.
Proof.
  induction 1 as [|wx l H _ IH]; simpl; [apply repeat_length|]. unfold vplus. rewrite map2_length, map_length, IH, H. lia.
Qed.
Lemma dotp_vplus row : forall a b, length a = length b -> dotp row (vplus a b) = dotp row a + dotp row b.
Proof.
  unfold dotp, vplus. induction row as [|r1 row IH]; intros [|x a] [|y b] H; simpl in *; try discriminate; try lra.
  rewrite IH by lia. lra.
Qed.
Lemma dotp_scale row k : forall a, dotp row (map (Rmult k) a) = k * dotp row a.
Proof. unfold dotp. induction row as [|r1 row IH]; intros [|x a]; simpl; try lra. rewrite IH. lra. Qed.
Lemma dotp_zero row N : dotp row (repeat 0 N) = 0.
Proof. unfold dotp. revert N. induction row as [|r1 row IH]; intros [|N]; simpl; try lra. rewrite IH. lra. Qed.
Lemma dotp_lincomb row N l : Forall (fun wx => length (snd wx) = N) l ->
  dotp row (lincomb N l) = Rsum (map (fun wx => fst wx * dotp row (snd wx)) l).
Proof.
  induction 1 as [|wx l H F IH]; simpl; [apply dotp_zero|].
  rewrite dotp_vplus by (rewrite map_length, lincomb_length; assumption). rewrite dotp_scale, IH. reflexivity.
Qed.
Lemma nth_map2 {A B C} (f : A -> B -> C) l : forall m i a b c, length l = length m -> (i < length l)%nat ->
  nth i (map2 f l m) c = f (nth i l a) (nth i m b).
Proof.
  induction l as [|x l IH]; intros [|y m] i a b c E L; simpl in *; try lia. destruct i as [|i]; [reflexivity|]. apply IH; lia.
Qed.
Lemma nth_map' {A B} (f : A -> B) l : forall i a b, (i < length l)%nat -> nth i (map f l) b = f (nth i l a).
Proof. induction l as [|x l IH]; intros i a b L; simpl in *; [lia|]. destruct i as [|i]; [reflexivity|]. apply IH. lia. Qed.
Lemma nth_lincomb N l i : Forall (fun wx => length (snd wx) = N) l -> (i < N)%nat ->
  nth i (lincomb N l) 0 = Rsum (map (fun wx => fst wx * nth i (snd wx) 0) l).
Proof.
  induction 1 as [|wx l H F IH]; intros L; simpl; [apply nth_repeat|]. unfold vplus.
  rewrite (nth_map2 _ _ _ _ 0 0) by (rewrite ?map_length, ?lincomb_length; auto; lia). rewrite IH by exact L. f_equal.
  rewrite (nth_indep _ 0 (fst wx * 0)) by (rewrite map_length; lia). apply (map_nth (Rmult (fst wx))).
Qed.
Lemma matvec_lincomb A N l : Forall (fun wx => length (snd wx) = N) l ->
  matvec A (lincomb N l) = map (fun row => Rsum (map (fun wx => fst wx * dotp row (snd wx)) l)) A.
Proof. intros H. apply map_ext. intros row. apply dotp_lincomb. exact H. Qed.

(** Unique solutions of linear systems are linear in the right hand side. *)
Definition solution (A : list (list R)) (x F : list R) : Prop := length x = length A /\ matvec A x = F.
Definition linear_solver (solve : list (list R) -> list R -> result (list R)) : Prop :=
  forall A F x, solve A F = Ok x -> solution A x F /\ forall y, solution A y F -> y = x.

Lemma solve_lincomb solve A (l : list (R * list R * list R)) F x :
  linear_solver solve -> (forall w f y, In (w, f, y) l -> solve A f = Ok y) -> solve A F = Ok x ->
  F = lincomb (length A) (map (fun t => (fst (fst t), snd (fst t))) l) ->
  x = lincomb (length A) (map (fun t => (fst (fst t), snd t)) l).
Proof.
  intros Hs Hl Hx HF. destruct (Hs _ _ _ Hx) as [_ U]. symmetry. apply U.
  assert (Fy : Forall (fun wx : R * list R => length (snd wx) = length A) (map (fun t => (fst (fst t), snd t)) l)).
  { apply Forall_forall. intros wx Hin. apply in_map_iff in Hin. destruct Hin as ([[w f] y] & <- & Hin). simpl.
    destruct (Hs _ _ _ (Hl _ _ _ Hin)) as [[Ly _] _]. exact Ly. }
  assert (Ff : Forall (fun wx : R * list R => length (snd wx) = length A) (map (fun t => (fst (fst t), snd (fst t))) l)).
  { apply Forall_forall. intros wx Hin. apply in_map_iff in Hin. destruct Hin as ([[w f] y] & <- & Hin). simpl.
    destruct (Hs _ _ _ (Hl _ _ _ Hin)) as [[_ My] _]. rewrite <- My. unfold matvec. apply map_length. }
  split; [apply lincomb_length; exact Fy|]. subst F. rewrite matvec_lincomb by exact Fy.
  apply nth_ext with (d := 0) (d' := 0); [rewrite map_length, lincomb_length; auto|]. intros i Hi. rewrite map_length in Hi.
  rewrite nth_lincomb by assumption. rewrite !map_map. cbn [fst snd].
  rewrite (nth_map' _ _ _ []) by exact Hi. rewrite map_map. cbn [fst snd]. apply Rsum_ext. intros [[w f] y] Hin. cbn [fst snd]. f_equal.
  destruct (Hs _ _ _ (Hl _ _ _ Hin)) as [[_ My] _]. rewrite <- My. unfold matvec.
  rewrite (nth_map' _ _ _ []) by exact Hi. reflexivity.
Qed.

(** ** Charges *)
Lemma evaluate_combine K ru x ss : evaluate K (mkcharges ru (combine x ss)) = dotp (map (source_sum K) ss) x.
Proof.
  unfold evaluate, dotp. cbn [q_items]. revert ss. induction x as [|a x IH]; intros [|s ss]; simpl; try reflexivity.
  rewrite IH. lra.
Qed.
Lemma evaluate_lincomb K ru N l ss : Forall (fun wx => length (snd wx) = N) l ->
  evaluate K (mkcharges ru (combine (lincomb N l) ss)) = Rsum (map (fun wx => fst wx * evaluate K (mkcharges ru (combine (snd wx) ss))) l).
Proof.
  intros H. rewrite evaluate_combine, dotp_lincomb by exact H. apply Rsum_ext. intros wx _. rewrite evaluate_combine. reflexivity.
Qed.

(** ** The same elements for two tables of conditions of the same kinds *)
Definition same_kinds (check : condition -> bool) (t t' : list (string * condition)) : Prop :=
  Forall2 (fun a b => fst b = fst a /\ check (snd b) = check (snd a)) t t'.
Lemma mark_active_same check phys t t' : same_kinds check t t' -> forall fl, mark_active check phys t' fl = mark_active check phys t fl.
Proof.
  induction 1 as [|[n c] [n' c'] t t' [E1 E2] F IH]; intros fl; [reflexivity|]. cbn [fst snd] in *. subst n'. cbn [mark_active].
  rewrite E2. destruct (check c); [|apply IH]. destruct (dget phys n); [|reflexivity]. destruct (put_all fl l false); cbn [bind]; auto.
Qed.
Lemma dget_same {X} (f : X -> condition -> condition -> Prop) (g : string -> X) t t' n :
  Forall2 (fun a b => fst b = fst a /\ f (g (fst a)) (snd a) (snd b)) t t' ->
  match dget t n, dget t' n with Some c, Some c' => f (g n) c c' | None, None => True | _, _ => False end.
Proof.
  induction 1 as [|[k c] [k' c'] t t' [E1 E2] F IH]; [exact I|]. cbn [fst snd] in *. subst k'. cbn [dget].
  destruct (String.eqb_spec k n) as [->|N]; [exact E2|exact IH].
Qed.
Lemma active_same check e u : e_mesh u = e_mesh e -> e_symmetry u = e_symmetry e -> same_kinds check (e_types e) (e_types u) ->
  active_elements check u = active_elements check e.
Proof.
  intros Em Es K. unfold active_elements. rewrite Em, Es.
  destruct (match e_symmetry e with RADIAL => (m_lines (e_mesh e), m_plines (e_mesh e)) | THREE_D => (m_triangles (e_mesh e), m_ptriangles (e_mesh e)) end) as [els phys].
  rewrite (mark_active_same _ _ _ _ K).
  replace (filter (fun g : string * list nat => match dget (e_types u) (fst g) with Some c => check c | None => false end) phys)
    with (filter (fun g : string * list nat => match dget (e_types e) (fst g) with Some c => check c | None => false end) phys); [reflexivity|].
  apply filter_ext. intros [n idx]. cbn [fst].
  pose proof (dget_same (fun (_ : unit) a b => check b = check a) (fun _ => tt) _ _ n K) as Q.
  destruct (dget (e_types e) n), (dget (e_types u) n); auto; contradiction.
Qed.

(** ** Elements carry the condition of the last group that contains them *)
Fixpoint element_labels (names : dict) (ls : list (option string)) : result (list (option string)) :=
  match names with
  | [] => Ok ls
  | (n, idx) :: t => ls' <- np_put ls idx (map (fun _ => Some n) idx) ;; element_labels t ls'
  end.
Definition labelled (nu : numerics) (types : list (string * condition)) (v : list point) (l : option string) : option (condition * R) :=
  match l with
  | None => None
  | Some n => match dget types n with Some c => Some (c, element_value nu v c) | None => None end
  end.
Lemma np_set_map2 {A B C} (g : A -> B -> C) vs : forall ls i v x, length ls = length vs -> nth_error vs i = Some v ->
  np_set (map2 g vs ls) i (g v x) = Ok (map2 g vs (upd ls i x)) /\ np_set ls i x = Ok (upd ls i x).
Proof.
  intros ls i v x L H. assert (Hi : (i < length vs)%nat) by (apply nth_error_Some; congruence).
  unfold np_set. rewrite map2_length, L, Nat.min_id. apply Nat.ltb_lt in Hi. rewrite Hi. split; [|reflexivity]. f_equal. clear Hi.
  revert ls i L H. induction vs as [|a vs IH]; intros [|b ls] i L H; simpl in L; try discriminate; [destruct i; discriminate|].
  destruct i as [|i]; simpl in *; [injection H as ->; reflexivity|]. f_equal. apply IH; [lia|exact H].
Qed.
Lemma upd_length {A} (l : list A) : forall i x, length (upd l i x) = length l.
Proof. induction l as [|a l IH]; intros [|i] x; simpl; auto. Qed.
Lemma np_put_map2 {A B C} (g : A -> B -> C) vs x idx : forall sel ls, length ls = length vs -> np_take vs idx = Ok sel ->
  exists ls', np_put ls idx (map (fun _ => x) idx) = Ok ls' /\ length ls' = length vs /\
              np_put (map2 g vs ls) idx (map (fun v => g v x) sel) = Ok (map2 g vs ls').
Proof.
  induction idx as [|i idx IH]; intros sel ls L H; unfold np_take in H; cbn [mapM] in H.
  - injection H as <-. exists ls. auto.
  - apply bind_ok in H. destruct H as (v & Hv & H). apply bind_ok in H. destruct H as (sel' & Hs & H). injection H as <-.
    unfold np_get in Hv. destruct (nth_error vs i) as [v'|] eqn:Ev; [|discriminate]. injection Hv as ->.
    cbn [map np_put]. destruct (np_set_map2 g vs ls i v x L Ev) as [-> ->]. cbn [bind].
    apply IH; [rewrite upd_length; exact L|exact Hs].
Qed.
Lemma conditions_labels nu types vs names : forall ls els, length ls = length vs ->
  element_conditions nu types vs names (map2 (labelled nu types) vs ls) = Ok els ->
  exists ls', element_labels names ls = Ok ls' /\ length ls' = length vs /\ els = map2 (labelled nu types) vs ls' /\
    forall n, In (Some n) ls' -> In (Some n) ls \/ In n (dkeys names).
Proof.
  induction names as [|[n idx] names IH]; intros ls els L H; cbn [element_conditions] in H.
  - injection H as <-. exists ls. auto.
  - destruct (dget types n) as [c|] eqn:Ec; [|discriminate]. apply bind_ok in H. destruct H as (sel & Hs & H).
    apply bind_ok in H. destruct H as (acc & Ha & H).
    destruct (np_put_map2 (labelled nu types) vs (Some n) idx sel ls L Hs) as (ls1 & P1 & L1 & P2).
    assert (Em : map (fun v => Some (c, element_value nu v c)) sel = map (fun v => labelled nu types v (Some n)) sel).
    { apply map_ext. intros v. unfold labelled. rewrite Ec. reflexivity. }
    rewrite Em, P2 in Ha. injection Ha as <-. destruct (IH ls1 els L1 H) as (ls' & Q1 & Q2 & Q3 & Q4).
    exists ls'. cbn [element_labels]. rewrite P1. cbn [bind]. split; [exact Q1|]. split; [exact Q2|]. split; [exact Q3|].
    intros k Hk. destruct (Q4 k Hk) as [Q|Q]; [|right; right; exact Q].
    assert (X : In (Some k) ls1 -> In (Some k) ls \/ k = n).
    { clear - P1. revert ls ls1 P1. induction idx as [|i idx IHi]; intros ls ls1 P; cbn [map np_put] in P.
      - injection P as <-. auto.
      - apply bind_ok in P. destruct P as (ls2 & E & P). intros Hin. destruct (IHi _ _ P Hin) as [Q|Q]; [|auto].
        unfold np_set in E. destruct (i <? length ls)%nat; [|discriminate]. injection E as <-.
        clear - Q. revert i Q. induction ls as [|a ls IH]; intros [|i] Q; simpl in *; auto.
        + destruct Q as [Q|Q]; [injection Q as ->; auto|auto].
        + destruct Q as [Q|Q]; [auto|]. destruct (IH i Q); auto. }
    destruct (X Q) as [Q'| ->]; [left; exact Q'|right; left; reflexivity].
Qed.
Lemma labelled_none nu types vs : map2 (labelled nu types) vs (repeat None (length vs)) = repeat None (length vs).
Proof. induction vs as [|v vs IH]; [reflexivity|]. simpl. rewrite IH. reflexivity. Qed.

Lemma new_solver_ok nu check e s : new_solver nu (active_elements check) e = Ok s ->
  exists names ls, active_elements check e = Ok (s_vertices s, names) /\ element_labels names (repeat None (length (s_vertices s))) = Ok ls /\
    length ls = length (s_vertices s) /\ s_elements s = map2 (labelled nu (e_types e)) (s_vertices s) ls /\ s_exc s = e /\
    (forall n, In (Some n) ls -> exists c, dget (e_types e) n = Some c /\ check c = true) /\
    py_assert (negb (is_higher_order (e_mesh e)) || is_2d (e_mesh e)) = Ok tt /\ is_2d (e_mesh e) && negb (is_higher_order (e_mesh e)) = false.
Proof.
  intros H. unfold new_solver in H. apply bind_ok in H. destruct H as ([vs names] & Ha & H). apply bind_ok in H. destruct H as (els & He & H).
  apply bind_ok in H. destruct H as (u & H1 & H). apply bind_ok in H. destruct H as (u2 & H2 & H). injection H as <-. cbn [s_vertices s_elements s_exc].
  rewrite <- (labelled_none nu (e_types e)) in He. destruct (conditions_labels _ _ _ _ _ _ (repeat_length _ _) He) as (ls & Q1 & Q2 & Q3 & Q4).
  exists names, ls. split; [exact Ha|]. split; [exact Q1|]. split; [exact Q2|]. split; [exact Q3|]. split; [reflexivity|]. split; [|split].
  - intros n Hn. destruct (Q4 n Hn) as [Q|Q].
    + exfalso. clear - Q. induction (length vs); simpl in Q; [exact Q|]. destruct Q as [Q|Q]; [discriminate|auto].
    + clear - Ha Q. unfold active_elements in Ha.
      destruct (match e_symmetry e with RADIAL => (m_lines (e_mesh e), m_plines (e_mesh e)) | THREE_D => (m_triangles (e_mesh e), m_ptriangles (e_mesh e)) end) as [els phys].
      apply bind_ok in Ha. destruct Ha as (fl & _ & Ha). apply bind_ok in Ha. destruct Ha as (nm & Hn & Ha). apply bind_ok in Ha.
      destruct Ha as (v & _ & Ha). injection Ha as _ ->.
      assert (K : dkeys names = dkeys (filter (fun g : string * list nat => match dget (e_types e) (fst g) with Some c => check c | None => false end) phys)).
      { exact (mapM_dict_keys _ _ _ Hn). }
      rewrite K in Q. unfold dkeys in Q. apply in_map_iff in Q. destruct Q as ([n' idx] & E & Q). cbn [fst] in E. subst n'. apply filter_In in Q.
      destruct Q as [_ Q]. cbn [fst] in Q. destruct (dget (e_types e) n) as [c|]; [exists c; auto|discriminate].
  - destruct u. exact H1.
  - destruct (is_2d (e_mesh e) && negb (is_higher_order (e_mesh e))); [discriminate|reflexivity].
Qed.

(** ** Unit excitations *)
(** [u] is [e] with the constant voltage or current of [n] set to one, all others to zero. *)
Definition unit_excitation_of (e : excitation) (n : string) (u : excitation) : Prop :=
  e_mesh u = e_mesh e /\ e_symmetry u = e_symmetry e /\
  Forall2 (fun a b => fst b = fst a /\ snd b = unit_of n (fst a) (snd a)) (e_types e) (e_types u).

Lemma unit_types_Forall2 n : forall types types',
  mapM (fun nc : string * condition => c <- unit_condition n (fst nc) (snd nc) ;; Ok (fst nc, c)) types = Ok types' ->
  Forall2 (fun a b => fst b = fst a /\ snd b = unit_of n (fst a) (snd a)) types types'.
Proof.
  induction types as [|[k c] types IH]; intros types' H; cbn [mapM] in H; [injection H as <-; constructor|].
  apply bind_ok in H. destruct H as ([k1 c1] & H1 & H). apply bind_ok in H. destruct H as (t' & H2 & H). injection H as <-.
  apply bind_ok in H1. destruct H1 as (c2 & Hc & E). cbn [fst snd] in *. injection E as <- <-. constructor; [|apply IH; exact H2].
  cbn [fst snd]. split; [reflexivity|]. unfold unit_condition in Hc. unfold unit_of. destruct c; try discriminate; injection Hc as <-; reflexivity.
Qed.
Lemma split_units e units : split_for_superposition e = Ok units ->
  map fst units = nonzero_sources (e_types e) /\
  (forall n u, In (n, u) units -> unit_excitation_of e n u /\ forall k f, ~ In (k, VOLTAGE_FUN f) (e_types e)).
Proof.
  intros H. unfold split_for_superposition in H. apply mapM_ok in H. split.
  - induction H as [|n [n' u] ns us Hn F IH]; [reflexivity|]. simpl. rewrite IH. f_equal.
    apply bind_ok in Hn. destruct Hn as (u' & _ & E). injection E as <- _. reflexivity.
  - intros n u Hin. destruct (In_nth_error _ _ Hin) as [i Hi]. destruct (Forall2_nth_r _ _ _ _ _ H Hi) as (n' & Hn & Hu).
    apply bind_ok in Hu. destruct Hu as (u' & Hu & E). injection E as <- <-. unfold unit_excitation in Hu.
    apply bind_ok in Hu. destruct Hu as (types & Ht & Hu). apply bind_ok in Hu. destruct Hu as (e1 & He1 & Hu). injection Hu as <-.
    unfold new_excitation in He1. apply bind_ok in He1. destruct He1 as (v & _ & He1). injection He1 as <-. split.
    + repeat split; auto. cbn [set_types e_types]. apply unit_types_Forall2. exact Ht.
    + intros k f Hk. destruct (unit_types _ _ _ Ht) as (_ & _ & K3). exact (K3 _ _ Hk).
Qed.
Lemma unit_of_check check n k c : (check = is_electrostatic_type \/ check = in_magnetostatic_matrix) -> check (unit_of n k c) = check c.
Proof. intros [-> | ->]; destruct c; reflexivity. Qed.
Lemma unit_same_kinds check e n u : (check = is_electrostatic_type \/ check = in_magnetostatic_matrix) ->
  unit_excitation_of e n u -> same_kinds check (e_types e) (e_types u).
Proof.
  intros Hc (_ & _ & F). unfold same_kinds. induction F as [|a b l m [E1 E2] F IH]; constructor; [|exact IH]. split; [exact E1|].
  rewrite E2. apply unit_of_check. exact Hc.
Qed.
Lemma unit_dget e n u k : unit_excitation_of e n u -> dget (e_types u) k = option_map (unit_of n k) (dget (e_types e) k).
Proof.
  intros (_ & _ & F). pose proof (dget_same (fun k c c' => c' = unit_of n k c) (fun k => k) _ _ k F) as Q.
  destruct (dget (e_types e) k), (dget (e_types u) k); try contradiction; [rewrite Q; reflexivity|reflexivity].
Qed.
Lemma existsb_unit e n u (P : condition -> bool) : (forall k c, P (unit_of n k c) = P c) -> unit_excitation_of e n u ->
  existsb (fun nc => P (snd nc)) (e_types u) = existsb (fun nc => P (snd nc)) (e_types e).
Proof. intros HP (_ & _ & F). induction F as [|a b l m [E1 E2] F IH]; [reflexivity|]. simpl. rewrite IH, E2, HP. reflexivity. Qed.
Lemma unit_is_electrostatic e n u : unit_excitation_of e n u -> is_electrostatic u = is_electrostatic e.
Proof. apply (existsb_unit e n u (fun c => match c with VOLTAGE_FIXED _ | VOLTAGE_FUN _ => true | _ => false end)). intros k c. destruct c; reflexivity. Qed.
Lemma unit_is_magnetostatic e n u : unit_excitation_of e n u -> is_magnetostatic u = is_magnetostatic e.
Proof. apply (existsb_unit e n u (fun c => match c with MAGNETOSTATIC_POT _ | CURRENT _ => true | _ => false end)). intros k c. destruct c; reflexivity. Qed.
Lemma unit_has_current e n u : unit_excitation_of e n u -> has_current u = has_current e.
Proof. apply (existsb_unit e n u (fun c => match c with CURRENT _ => true | _ => false end)). intros k c. destruct c; reflexivity. Qed.

(** The solvers of an excitation and of its unit excitations *)
Section UnitSolver.
  Variables (nu : numerics) (check : condition -> bool) (e u : excitation) (n : string) (s su : solver).
  Hypothesis Hc : check = is_electrostatic_type \/ check = in_magnetostatic_matrix.
  Hypothesis Hu : unit_excitation_of e n u.
  Hypothesis Hs : new_solver nu (active_elements check) e = Ok s.
  Hypothesis Hsu : new_solver nu (active_elements check) u = Ok su.

  Lemma unit_solver : s_vertices su = s_vertices s /\ s_exc s = e /\ s_exc su = u /\ get_matrix nu su = get_matrix nu s /\
    (forall names ls, active_elements check e = Ok (s_vertices s, names) -> element_labels names (repeat None (length (s_vertices s))) = Ok ls ->
      s_elements su = map2 (labelled nu (e_types u)) (s_vertices s) ls).
  Proof using Hc Hu Hs Hsu.
    destruct (new_solver_ok _ _ _ _ Hs) as (names & ls & A1 & A2 & A3 & A4 & A5 & A6 & _).
    destruct (new_solver_ok _ _ _ _ Hsu) as (names' & ls' & B1 & B2 & B3 & B4 & B5 & B6 & _).
    destruct Hu as (Em & Es & F). rewrite (active_same check e u Em Es) in B1 by (apply (unit_same_kinds check e n u Hc Hu)).
    rewrite A1 in B1. injection B1 as Ev En. rewrite <- Ev in *. subst names'. rewrite A2 in B2. injection B2 as <-.
    split; [reflexivity|]. split; [exact A5|]. split; [exact B5|]. split.
    - unfold get_matrix. rewrite A4, B4, <- Ev, !map2_length, A3.
      assert (X : forall vs l ix, length l = length vs ->
        map2 (fun i el => map (fun j => matrix_entry nu su i j el) (arange (length (s_vertices s)))) ix (map2 (labelled nu (e_types u)) vs l) =
        map2 (fun i el => map (fun j => matrix_entry nu s i j el) (arange (length (s_vertices s)))) ix (map2 (labelled nu (e_types e)) vs l)).
      { induction vs as [|v vs IH]; intros [|a l] [|i ix] L; simpl in L; try discriminate; try reflexivity. cbn [map2]. rewrite IH by lia. f_equal.
        apply map_ext. intros j. unfold matrix_entry, labelled. rewrite <- Ev. destruct a as [k|]; [|reflexivity].
        rewrite (unit_dget e n u k Hu). destruct (dget (e_types e) k) as [c|]; [|reflexivity]. cbn [option_map]. destruct c; reflexivity. }
      apply X. exact A3.
    - intros names2 ls2 C1 C2. rewrite A1 in C1. injection C1 as <-. rewrite A2 in C2. injection C2 as <-. exact B4.
  Qed.
End UnitSolver.
Lemma unit_solver_exists nu check e n u s : (check = is_electrostatic_type \/ check = in_magnetostatic_matrix) -> unit_excitation_of e n u ->
  new_solver nu (active_elements check) e = Ok s -> exists su, new_solver nu (active_elements check) u = Ok su.
Proof.
  intros Hc Hu Hs. unfold new_solver in *. destruct Hu as (Em & Es & F). 
  rewrite (active_same check e u Em Es) by (apply (unit_same_kinds check e n u Hc); split; auto).
  apply bind_ok in Hs. destruct Hs as ([vs names] & -> & Hs). cbn [bind]. apply bind_ok in Hs. destruct Hs as (els & He & Hs).
  assert (X : forall names acc els acc', element_conditions nu (e_types e) vs names acc = Ok els -> length acc' = length acc ->
    exists els', element_conditions nu (e_types u) vs names acc' = Ok els').
  { clear - F. induction names as [|[k idx] names IH]; intros acc els acc' H L; cbn [element_conditions] in *; [eauto|].
    pose proof (dget_same (fun k c c' => c' = unit_of n k c) (fun k => k) _ _ k F) as Q.
    destruct (dget (e_types e) k) as [c|]; [|discriminate]. destruct (dget (e_types u) k) as [c'|]; [|contradiction].
    apply bind_ok in H. destruct H as (sel & Hsel & H). rewrite Hsel. cbn [bind]. apply bind_ok in H. destruct H as (acc1 & Ha & H).
    assert (Y : forall idx (vals vals' : list (option (condition * R))) a1 a2 b1, np_put a1 idx vals = Ok b1 -> length vals' = length vals -> length a2 = length a1 ->
              exists b2, np_put a2 idx vals' = Ok b2 /\ length b2 = length b1).
    { clear. induction idx as [|i idx IH]; intros [|v vals] [|v' vals'] a1 a2 b1 H L1 L2; cbn [np_put] in *; try discriminate.
      - injection H as <-. eauto.
      - apply bind_ok in H. destruct H as (a1' & E & H). unfold np_set in *. rewrite L2. destruct (i <? length a1)%nat; [|discriminate].
        injection E as <-. cbn [bind]. eapply IH; [exact H|simpl in L1; lia|rewrite !upd_length; exact L2]. }
    destruct (Y _ _ (map (fun v => Some (c', element_value nu v c')) sel) _ acc' _ Ha) as (b2 & P1 & P2); [rewrite !map_length; reflexivity|exact L|].
    rewrite P1. cbn [bind]. apply (IH acc1 els); [exact H|exact P2]. }
  destruct (X _ _ _ (repeat None (length vs)) He eq_refl) as (els' & ->). cbn [bind]. rewrite Em.
  apply bind_ok in Hs. destruct Hs as (u1 & -> & Hs). cbn [bind]. apply bind_ok in Hs. destruct Hs as (u2 & -> & Hs). cbn [bind]. eauto.
Qed.

(** The right hand side of the electrostatic problem is the applied value of the group of each element. *)
Lemma electrostatic_rhs_values nu e s : electrostatic_solver nu e = Ok s -> (forall k f, ~ In (k, VOLTAGE_FUN f) (e_types e)) ->
  forall ls, s_elements s = map2 (labelled nu (e_types e)) (s_vertices s) ls -> length ls = length (s_vertices s) ->
  (forall k, In (Some k) ls -> exists c, dget (e_types e) k = Some c /\ is_electrostatic_type c = true) ->
  electrostatic_rhs s = map (fun l => match l with Some k => value_of e k | None => 0 end) ls.
Proof.
  intros _ Hf ls E L Hl. unfold electrostatic_rhs. rewrite E. clear E. revert ls L Hl. generalize (s_vertices s).
  induction l as [|v vs IH]; intros [|a ls] L Hl; simpl in L; try discriminate; [reflexivity|]. cbn [map2 map]. rewrite IH; [|lia|intros k Hk; apply Hl; right; exact Hk].
  f_equal. destruct a as [k|]; [|reflexivity]. destruct (Hl k (or_introl eq_refl)) as (c & Ec & Ek). unfold labelled, value_of. rewrite Ec.
  destruct c; try discriminate; try reflexivity. exfalso. apply (Hf k f). apply dget_In. exact Ec.
Qed.

(** ** Solving for several right hand sides *)
Lemma solve_matrix_ok nu s to_field rhs fs : solve_matrix nu s to_field rhs = Ok fs ->
  exists xs, Forall2 (fun f x => (s_vertices s = [] /\ x = []) \/ nu_solve nu (get_matrix nu s) f = Ok x) rhs xs /\
    Forall2 (fun x g => to_field (mkcharges (mesh_rule (e_mesh (s_exc s))) (combine x (sources nu s))) = Ok g) xs fs.
Proof.
  intros H. unfold solve_matrix in H. destruct (s_vertices s) as [|v vs] eqn:Ev.
  - apply mapM_ok in H. exists (map (fun _ => []) rhs). split.
    + clear. induction rhs; simpl; constructor; auto.
    + induction H as [|a b l m E F IH]; simpl; constructor; auto.
  - apply bind_ok in H. destruct H as (u1 & _ & H). apply bind_ok in H. destruct H as (u2 & _ & H).
    destruct rhs as [|r1 rhs]; [discriminate|]. apply mapM_ok in H. set (rs := r1 :: rhs) in *. clearbody rs. clear u1 u2.
    induction H as [|a b l m E F (xs & F1 & F2)]; [exists []; split; constructor|].
    apply bind_ok in E. destruct E as (x & Hx & Hg). exists (x :: xs). split; constructor; auto.
Qed.
Lemma solve_matrix_single nu s to_field f g : solve_matrix nu s to_field [f] = Ok g -> exists g0, g = [g0].
Proof. intros H. apply solve_matrix_ok in H. destruct H as (xs & F1 & F2). inversion F1; subst. inversion H3; subst. inversion F2; subst. inversion H5; subst. eauto. Qed.

Lemma weighted_core nu s to_field get ws rhs fs F f K :
  linear_solver (nu_solve nu) -> (forall c g, to_field c = Ok g -> get g = c) ->
  solve_matrix nu s to_field rhs = Ok fs -> solve_matrix nu s to_field [F] = Ok [f] ->
  length ws = length rhs -> length (s_elements s) = length (s_vertices s) ->
  F = lincomb (length (s_vertices s)) (combine ws rhs) ->
  Rsum (map (fun wg => fst wg * evaluate K (get (snd wg))) (combine ws fs)) = evaluate K (get f).
Proof.
  intros Hlin Hget Hfs Hf Lw Le HF. apply solve_matrix_ok in Hfs. destruct Hfs as (xs & X1 & X2).
  apply solve_matrix_ok in Hf. destruct Hf as (xs0 & Y1 & Y2). inversion Y1 as [|? x ? ? Y1a Y1b]; subst. inversion Y1b; subst. clear Y1 Y1b.
  inversion Y2 as [|? ? ? ? Y2a Y2b]; subst. clear Y2 Y2b.
  set (ru := mesh_rule (e_mesh (s_exc s))) in *. set (ss := sources nu s) in *.
  rewrite (Hget _ _ Y2a).
  assert (E1 : Rsum (map (fun wg => fst wg * evaluate K (get (snd wg))) (combine ws fs)) =
               Rsum (map (fun wx => fst wx * evaluate K (mkcharges ru (combine (snd wx) ss))) (combine ws xs))).
  { clear - X2 Hget. revert ws. induction X2 as [|y g xs fs E F IH]; intros [|w ws]; simpl; try reflexivity. rewrite IH, (Hget _ _ E). reflexivity. }
  rewrite E1. destruct (s_vertices s) as [|v vs] eqn:Ev.
  - assert (Z : ss = []) by (unfold ss, sources; rewrite Ev; reflexivity). rewrite Z.
    assert (Q : forall y : list R, evaluate K (mkcharges ru (combine y (@nil source))) = 0).
    { intros y. rewrite evaluate_combine. reflexivity. }
    rewrite Q. erewrite Rsum_ext; [|intros y _; rewrite Q; reflexivity]. clear. induction (combine ws xs) as [|wx l IH]; simpl; lra.
  - destruct Y1a as [[Q _]|Y1a]; [discriminate|].
    assert (LA : length (get_matrix nu s) = length (v :: vs)).
    { unfold get_matrix. rewrite map2_length. unfold arange. rewrite seq_length, Le. lia. }
    assert (X1' : forall w g y, In (w, g, y) (combine (combine ws rhs) xs) -> nu_solve nu (get_matrix nu s) g = Ok y).
    { clear - X1 Lw. revert ws Lw. induction X1 as [|a b l m E F IH]; intros [|w ws] Lw w' g y Hin; simpl in *; try discriminate; try contradiction.
      destruct Hin as [Q|Hin]; [injection Q as <- <- <-; destruct E as [[Q _]|E]; [discriminate|exact E]|]. eapply IH; [|exact Hin]. lia. }
    pose proof (Forall2_length _ _ _ X1) as LX.
    pose proof (solve_lincomb (nu_solve nu) (get_matrix nu s) (combine (combine ws rhs) xs) _ x Hlin X1' Y1a) as Sol.
    assert (P1 : map (fun t : R * list R * list R => (fst (fst t), snd (fst t))) (combine (combine ws rhs) xs) = combine ws rhs).
    { clear - Lw LX. revert rhs xs Lw LX. induction ws as [|w ws IH]; intros [|a rhs] [|b xs] Lw LX; simpl in *; try discriminate; try reflexivity. rewrite IH; auto. }
    assert (P2 : map (fun t : R * list R * list R => (fst (fst t), snd t)) (combine (combine ws rhs) xs) = combine ws xs).
    { clear - Lw LX. revert rhs xs Lw LX. induction ws as [|w ws IH]; intros [|a rhs] [|b xs] Lw LX; simpl in *; try discriminate; try reflexivity. rewrite IH; auto. }
    rewrite P1, P2 in Sol. rewrite LA in Sol. specialize (Sol eq_refl). rewrite Sol. rewrite evaluate_lincomb; [reflexivity|].
    rewrite <- P2. apply Forall_forall. intros wx Hin. apply in_map_iff in Hin. destruct Hin as ([[w g] y] & <- & Hin). simpl.
    destruct (Hlin _ _ _ (X1' _ _ _ Hin)) as [[Ly _] _]. rewrite Ly. exact LA.
Qed.

Lemma lincomb_values (ls : list (option string)) (val : excitation -> string -> R) e (units : list (string * excitation)) N :
  length ls = N -> (forall k, In (Some k) ls -> Rsum (map (fun nu => value_of e (fst nu) * val (snd nu) k) units) = val e k) ->
  map (fun l => match l with Some k => val e k | None => 0 end) ls =
  lincomb N (combine (map (fun nu => value_of e (fst nu)) units) (map (fun nu => map (fun l => match l with Some k => val (snd nu) k | None => 0 end) ls) units)).
Proof.
  intros L H.
  replace (combine _ _) with (map (fun nu : string * excitation => (value_of e (fst nu), map (fun l => match l with Some k => val (snd nu) k | None => 0 end) ls)) units).
  2:{ clear. induction units as [|a l IH]; simpl; [reflexivity|]. rewrite IH. reflexivity. }
  assert (Fl : Forall (fun wx : R * list R => length (snd wx) = N)
     (map (fun nu : string * excitation => (value_of e (fst nu), map (fun l => match l with Some k => val (snd nu) k | None => 0 end) ls)) units)).
  { apply Forall_forall. intros wx Hin. apply in_map_iff in Hin. destruct Hin as (nu & <- & _). simpl. rewrite map_length. exact L. }
  apply nth_ext with (d := 0) (d' := 0); [rewrite map_length, lincomb_length; auto|]. intros i Hi. rewrite map_length in Hi.
  rewrite nth_lincomb; [|exact Fl|lia]. rewrite map_map. cbn [fst snd]. rewrite (nth_map' _ _ _ None) by exact Hi.
  pose proof (nth_In ls None Hi) as Hin. 
  erewrite (Rsum_ext (fun x : string * excitation => value_of e (fst x) * nth i _ 0)); [|intros x _; rewrite (nth_map' _ _ _ None) by exact Hi; reflexivity].
  destruct (nth i ls None) as [k|]; [symmetry; apply H; exact Hin|]. clear. induction units as [|a l IH]; simpl; [lra|]. rewrite <- IH. lra.
Qed.
Lemma weighted_sum_Rsum e units k : NoDup (dkeys (e_types e)) -> split_for_superposition e = Ok units ->
  Rsum (map (fun nu => value_of e (fst nu) * value_of (snd nu) k) units) = value_of e k.
Proof.
  intros ND H. rewrite <- (C28_weighted_sum e units k ND H). clear. induction units as [|a l IH]; simpl; [reflexivity|]. rewrite IH. reflexivity.
Qed.
Lemma filter_all {A} (f : A -> bool) l : (forall x, In x l -> f x = true) -> filter f l = l.
Proof. induction l as [|a l IH]; intros H; [reflexivity|]. simpl. rewrite (H a (or_introl eq_refl)), IH; [reflexivity|]. intros x Hx. apply H. right. exact Hx. Qed.
Lemma filter_none {A} (f : A -> bool) l : (forall x, In x l -> f x = false) -> filter f l = [].
Proof. induction l as [|a l IH]; intros H; [reflexivity|]. simpl. rewrite (H a (or_introl eq_refl)), IH; [reflexivity|]. intros x Hx. apply H. right. exact Hx. Qed.

Lemma solve_matrix_each nu s to_field rhs fs : solve_matrix nu s to_field rhs = Ok fs ->
  Forall2 (fun r g => solve_matrix nu s to_field [r] = Ok [g]) rhs fs.
Proof.
  intros H. unfold solve_matrix in *. destruct (s_vertices s) as [|v vs].
  - apply mapM_ok in H. cbn [mapM]. induction H as [|a b l m E F IH]; constructor; auto. rewrite E. reflexivity.
  - apply bind_ok in H. destruct H as (u1 & H1 & H). apply bind_ok in H. destruct H as (u2 & H2 & H).
    destruct rhs as [|r1 rhs]; [discriminate|]. set (rs := r1 :: rhs) in *. clearbody rs.
    unfold py_assert in H1. destruct (forallb _ rs) eqn:Ef; [|discriminate]. rewrite forallb_forall in Ef. rewrite H2. apply mapM_ok in H.
    cbn [mapM forallb]. clear - H Ef. induction H as [|a b l m E F IH]; constructor.
    + rewrite (Ef a (or_introl eq_refl)). cbn [andb py_assert bind]. cbn [bind]. rewrite E. reflexivity.
    + apply IH. intros x Hx. apply Ef. right. exact Hx.
Qed.
Lemma solved_unit o third e0 e n u0 : solved_excitation o third e0 = Ok e -> unit_excitation_of e0 n u0 ->
  exists u, solved_excitation o third u0 = Ok u /\ unit_excitation_of e n u.
Proof.
  intros H (Em & Es & F). unfold solved_excitation in *. rewrite Em. destruct (is_2d (e_mesh e0) && negb (is_higher_order (e_mesh e0))).
  - apply bind_ok in H. destruct H as (m & -> & H). injection H as <-. cbn [bind]. eexists. split; [reflexivity|]. repeat split; auto.
  - injection H as <-. eexists. split; [reflexivity|]. repeat split; auto.
Qed.
Lemma solved_types o third e0 e : solved_excitation o third e0 = Ok e -> e_types e = e_types e0 /\ e_symmetry e = e_symmetry e0.
Proof.
  unfold solved_excitation. destruct (is_2d (e_mesh e0) && negb (is_higher_order (e_mesh e0))); intros H.
  - apply bind_ok in H. destruct H as (m & _ & H). injection H as <-. auto.
  - injection H as <-. auto.
Qed.
Lemma electrostatic_field_get m c g : electrostatic_field m c = Ok g -> b_elec g = c /\ q_items (b_mag g) = [] /\ q_items (b_cur g) = [] /\
  b_class g = (if is_3d m then Field3D_BEM else FieldRadialBEM).
Proof.
  unfold electrostatic_field, three_d_bem. destruct (is_3d m); [destruct (q_rule c); cbn; intros H; [discriminate|]|intros H]; injection H as <-; auto.
Qed.
Lemma no_units_fun e units : split_for_superposition e = Ok units -> units <> [] -> forall k f, ~ In (k, VOLTAGE_FUN f) (e_types e).
Proof. intros H N. destruct units as [|[n u] units]; [contradiction|]. destruct (split_units _ _ H) as [_ S]. destruct (S n u (or_introl eq_refl)) as [_ Q]. exact Q. Qed.
Lemma unit_no_fun e n u : unit_excitation_of e n u -> (forall k f, ~ In (k, VOLTAGE_FUN f) (e_types e)) -> forall k f, ~ In (k, VOLTAGE_FUN f) (e_types u).
Proof.
  intros (_ & _ & F) H k f Hin. destruct (In_nth_error _ _ Hin) as [i Hi]. destruct (Forall2_nth_r _ _ _ _ _ F Hi) as ([k' c] & Hn & E1 & E2).
  cbn [fst snd] in *. destruct c; try discriminate. apply (H k' f0). apply (nth_error_In _ _ Hn).
Qed.
Lemma unit_value_of e n u k : unit_excitation_of e n u ->
  value_of u k = if String.eqb k n then match dget (e_types e) k with Some (VOLTAGE_FIXED _) | Some (CURRENT _) => 1 | _ => 0 end else 0.
Proof.
  intros H. unfold value_of. rewrite (unit_dget e n u k H). destruct (dget (e_types e) k) as [[]|]; simpl; destruct (String.eqb k n); reflexivity.
Qed.
Lemma dset_fresh_last {A} (d : list (string * A)) n x : ~ In n (dkeys d) -> dset d n x = d ++ [(n, x)].
Proof.
  induction d as [|[k y] d IH]; intros H; [reflexivity|]. simpl. destruct (String.eqb_spec k n) as [->|N]; [exfalso; apply H; left; reflexivity|].
  rewrite IH; [reflexivity|]. intros Q. apply H. right. exact Q.
Qed.

Lemma electrostatic_superposition nu o third e0 fields f :
  linear_solver (nu_solve nu) -> NoDup (dkeys (e_types e0)) -> (forall k c, dget (e_types e0) k = Some c -> electrostatic_kind c) ->
  solve_direct_superposition nu o third e0 = Ok fields -> solve_direct nu o third e0 = Ok f ->
  map fst fields = nonzero_sources (e_types e0) /\
  (forall n g, In (n, g) fields -> forall u, unit_excitation_of e0 n u -> solve_direct nu o third u = Ok g) /\
  (forall K, Rsum (map (fun ng => value_of e0 (fst ng) * evaluate K (b_elec (snd ng))) fields) = evaluate K (b_elec f)) /\
  Forall (fun g => q_items (b_mag g) = [] /\ q_items (b_cur g) = [] /\ b_class g = b_class f) (f :: map snd fields).
Proof.
  intros Hlin ND0 Kind0 Hsup Hdir. unfold solve_direct_superposition in Hsup. unfold solve_direct in Hdir.
  destruct (solved_excitation o third e0) as [e|x] eqn:Es; [|discriminate]. cbn [bind] in Hsup, Hdir.
  destruct (solved_types _ _ _ _ Es) as [Et _]. rewrite <- Et in *.
  assert (V0 : forall k, value_of e0 k = value_of e k) by (intros k; unfold value_of; rewrite Et; reflexivity).
  assert (Mag : is_magnetostatic e = false).
  { unfold is_magnetostatic. apply not_true_iff_false. intros Q. apply existsb_exists in Q. destruct Q as ([k c] & Hin & Q). cbn [snd] in Q.
    destruct (Kind0 k c (In_dget _ _ _ ND0 Hin)) as (v & g & k' & [-> | [-> | ->]]); discriminate. }
  rewrite Mag in Hdir. cbn [orb andb] in Hdir. apply bind_ok in Hdir. destruct Hdir as (u1 & Ha & Hdir).
  destruct (is_electrostatic e) eqn:Elec; [|discriminate]. clear u1 Ha.
  unfold solve_electrostatic in Hdir. apply bind_ok in Hdir. destruct Hdir as (s & Hs & Hdir). apply bind_ok in Hdir. destruct Hdir as (fs1 & Hf & Hdir).
  destruct (solve_matrix_single _ _ _ _ _ Hf) as (f0 & ->). cbn in Hdir. injection Hdir as ->.
  apply bind_ok in Hsup. destruct Hsup as (units & Hu & Hsup). destruct (split_units _ _ Hu) as [Un Uu].
  assert (Fe : filter (fun nx : string * excitation => is_electrostatic (snd nx)) units = units).
  { apply filter_all. intros [n u] Hin. destruct (Uu n u Hin) as [Q _]. cbn [snd]. rewrite (unit_is_electrostatic _ _ _ Q). exact Elec. }
  assert (Fm : filter (fun nx : string * excitation => is_magnetostatic (snd nx)) units = []).
  { apply filter_none. intros [n u] Hin. destruct (Uu n u Hin) as [Q _]. cbn [snd]. rewrite (unit_is_magnetostatic _ _ _ Q). exact Mag. }
  rewrite Fe, Fm in Hsup. apply bind_ok in Hsup. destruct Hsup as (rhs & Hrhs & Hsup). rewrite Hs in Hsup. cbn [bind] in Hsup.
  apply bind_ok in Hsup. destruct Hsup as (fs & Hfs & Hsup). cbn [mapM bind] in Hsup.
  apply bind_ok in Hsup. destruct Hsup as (sm & _ & Hsup). apply bind_ok in Hsup. destruct Hsup as (cs & _ & Hsup).
  apply bind_ok in Hsup. destruct Hsup as (fm & _ & Hsup). cbn [map combine merge_dicts fold_left] in Hsup.
  replace (combine (@nil string) fm) with (@nil (string * bem)) in Hsup by (destruct fm; reflexivity). cbn [merge_dicts fold_left] in Hsup. injection Hsup as <-.
  destruct (new_solver_ok _ _ _ _ Hs) as (names & ls & A1 & A2 & A3 & A4 & A5 & A6 & _).
  assert (RU : forall n u su, unit_excitation_of e n u -> units <> [] -> electrostatic_solver nu u = Ok su ->
            electrostatic_rhs su = map (fun l => match l with Some k => value_of u k | None => 0 end) ls).
  { intros n u su Q Ne Hsu. destruct (unit_solver nu is_electrostatic_type e u n s su (or_introl eq_refl) Q Hs Hsu) as (B1 & _ & _ & _ & B5).
    rewrite (electrostatic_rhs_values nu u su Hsu (unit_no_fun _ _ _ Q (no_units_fun _ _ Hu Ne)) ls); [reflexivity|rewrite B1; eapply B5; eassumption|congruence|].
    intros k Hk. destruct (A6 k Hk) as (c & C1 & C2). rewrite (unit_dget _ _ _ k Q), C1. cbn [option_map]. exists (unit_of n k c). split; [reflexivity|].
    rewrite unit_of_check; auto. }
  assert (Erhs : rhs = map (fun nu => map (fun l => match l with Some k => value_of (snd nu) k | None => 0 end) ls) units).
  { apply mapM_ok in Hrhs. assert (G : forall us rs, Forall2 (fun (a : string * excitation) b => (s <- electrostatic_solver nu (snd a);; Ok (electrostatic_rhs s)) = Ok b) us rs ->
      (forall x, In x us -> In x units) -> rs = map (fun nu => map (fun l => match l with Some k => value_of (snd nu) k | None => 0 end) ls) us).
    { induction 1 as [|[n u] b us rs E F IH]; intros Hin; [reflexivity|]. simpl. rewrite IH by (intros x Hx; apply Hin; right; exact Hx). f_equal.
      apply bind_ok in E. destruct E as (su & Hsu & E). injection E as <-. cbn [snd] in *. assert (I : In (n, u) units) by (apply Hin; left; reflexivity).
      destruct (Uu n u I) as [Q _]. apply (RU n u su Q); [|exact Hsu]. intros ->. destruct I. }
    apply (G units rhs Hrhs). auto. }
  pose proof (Forall2_length _ _ _ (proj1 (mapM_ok _ _ _) Hrhs)) as Lr.
  pose proof (solve_matrix_each _ _ _ _ _ Hfs) as Each. pose proof (Forall2_length _ _ _ Each) as Lf.
  split; [|split; [|split]].
  - rewrite <- Un. rewrite <- (map_length fst) in Lr. rewrite Lf in Lr. clear - Lr. revert Lr. generalize (map fst units). intros l. revert fs.
    induction l as [|a l IH]; intros [|b fs] L; simpl in *; try discriminate; [reflexivity|]. rewrite IH by lia. reflexivity.
  - intros n g Hin u Hunit. destruct (solved_unit _ _ _ _ _ _ Es Hunit) as (u' & Hu' & Hunit').
    unfold solve_direct. rewrite Hu'. cbn [bind]. rewrite (unit_is_magnetostatic _ _ _ Hunit'), Mag, (unit_is_electrostatic _ _ _ Hunit'), Elec.
    cbn [orb andb py_assert bind]. unfold solve_electrostatic.
    destruct (unit_solver_exists nu is_electrostatic_type e n u' s (or_introl eq_refl) Hunit' Hs) as (su & Hsu).
    unfold electrostatic_solver, get_electrostatic_active_elements. rewrite Hsu. cbn [bind].
    assert (Ne : units <> []) by (intros ->; destruct Hin).
    rewrite (RU n u' su Hunit' Ne Hsu).
    destruct (unit_solver nu is_electrostatic_type e u' n s su (or_introl eq_refl) Hunit' Hs Hsu) as (B1 & _ & B3 & B4 & _).
    assert (Sm : forall r, solve_matrix nu su (electrostatic_field (e_mesh u')) r = solve_matrix nu s (electrostatic_field (e_mesh e)) r).
    { intros r1. unfold solve_matrix, sources. destruct Hunit' as (Em & _). rewrite B1, B3, B4, A5, Em. reflexivity. }
    rewrite Sm. destruct (In_nth_error _ _ Hin) as [i Hi].
    assert (Q : exists n' w, nth_error units i = Some (n', w) /\ n' = n /\ nth_error fs i = Some g).
    { clear - Hi Lr Lf. rewrite Lf in Lr. clear Lf. revert units fs Lr Hi. induction i as [|i IH]; intros [|[a w] us] [|b fs] L Hi; simpl in *; try discriminate.
      - injection Hi as -> ->. eauto.
      - apply IH; [lia|exact Hi]. }
    destruct Q as (n' & w & Q1 & -> & Q2). destruct (Uu n w (nth_error_In _ _ Q1)) as [Hw _].
    destruct (Forall2_nth_r _ _ _ _ _ Each Q2) as (r1 & R1 & R2). rewrite Erhs, nth_error_map, Q1 in R1. cbn [option_map snd] in R1. injection R1 as <-.
    replace (map (fun l => match l with Some k => value_of u' k | None => 0 end) ls) with (map (fun l => match l with Some k => value_of w k | None => 0 end) ls); [rewrite R2; reflexivity|].
    apply map_ext. intros [k|]; [|reflexivity]. rewrite (unit_value_of _ _ _ k Hunit'), (unit_value_of _ _ _ k Hw). reflexivity.
  - intros K.
    assert (C : forall (us : list (string * excitation)) gs, map (fun ng : string * bem => value_of e0 (fst ng) * evaluate K (b_elec (snd ng))) (combine (map fst us) gs) =
              map (fun wg : R * bem => fst wg * evaluate K (b_elec (snd wg))) (combine (map (fun nu => value_of e (fst nu)) us) gs)).
    { induction us as [|a us IH]; intros [|b gs]; simpl; try reflexivity. rewrite IH, V0. reflexivity. }
    rewrite C.
    destruct (Nat.eq_dec (length units) 0) as [Z|NZ].
    + destruct units; [|discriminate]. simpl in *. injection Hrhs as <-. unfold solve_matrix in Hfs, Hf.
      destruct (s_vertices s) as [|v vs] eqn:Ev.
      * cbn [mapM bind] in Hf. apply bind_ok in Hf. destruct Hf as (f1 & Hf1 & Hf2). injection Hf2 as ->.
        apply electrostatic_field_get in Hf1. destruct Hf1 as (-> & _). reflexivity.
      * cbn [forallb py_assert bind] in Hfs. apply bind_ok in Hfs. destruct Hfs as (? & _ & Hfs). discriminate.
    + assert (Ne : units <> []) by (intros ->; apply NZ; reflexivity).
      apply (weighted_core nu s (electrostatic_field (e_mesh e)) b_elec _ rhs fs (electrostatic_rhs s) f K Hlin).
      * intros c g Hg. apply electrostatic_field_get in Hg. tauto.
      * exact Hfs.
      * exact Hf.
      * rewrite map_length. exact Lr.
      * rewrite A4, map2_length, A3. lia.
      * rewrite (electrostatic_rhs_values nu e s Hs (no_units_fun _ _ Hu Ne) ls A4 A3 A6), Erhs.
        apply (lincomb_values ls value_of e units); [exact A3|]. intros k Hk. apply weighted_sum_Rsum; auto.
  - assert (P : forall g r1, solve_matrix nu s (electrostatic_field (e_mesh e)) [r1] = Ok [g] ->
        q_items (b_mag g) = [] /\ q_items (b_cur g) = [] /\ b_class g = (if is_3d (e_mesh e) then Field3D_BEM else FieldRadialBEM)).
    { intros g r1 H. apply solve_matrix_ok in H. destruct H as (xs & _ & H). inversion H; subst. apply electrostatic_field_get in H3. tauto. }
    destruct (P _ _ Hf) as (P1 & P2 & P3). constructor; [auto|]. apply Forall_forall. intros g Hg. apply in_map_iff in Hg.
    destruct Hg as ([n g'] & <- & Hg). apply in_combine_r in Hg. cbn [snd]. destruct (In_nth_error _ _ Hg) as [i Hi].
    destruct (Forall2_nth_r _ _ _ _ _ Each Hi) as (r1 & _ & R2). destruct (P _ _ R2) as (R3 & R4 & R5). rewrite P3. auto.
Qed.

(** ** Magnetostatic problems *)
Lemma merge_prefix {A} (ns : list string) : forall (d : list (string * A)) fs gs, NoDup ns -> (forall n, In n ns -> ~ In n (dkeys d)) ->
  length fs = length ns -> length gs = length ns ->
  merge_dicts (d ++ combine ns fs) (combine ns gs) = d ++ combine ns gs.
Proof.
  induction ns as [|n ns IH]; intros d fs gs ND Hd Lf Lg; destruct fs as [|a fs], gs as [|b gs]; simpl in *; try discriminate; [reflexivity|].
  unfold merge_dicts. cbn [fold_left fst snd]. inversion ND as [|? ? N1 N2]; subst.
  assert (E : dset (d ++ (n, a) :: combine ns fs) n b = (d ++ [(n, b)]) ++ combine ns fs).
  { clear - Hd. assert (Hn : ~ In n (dkeys d)) by (apply Hd; left; reflexivity). clear Hd. induction d as [|[k x] d IH]; simpl.
    - rewrite String.eqb_refl. reflexivity.
    - destruct (String.eqb_spec k n) as [->|N]; [exfalso; apply Hn; left; reflexivity|]. rewrite IH; [reflexivity|]. intros Q. apply Hn. right. exact Q. }
  rewrite E. fold (merge_dicts ((d ++ [(n, b)]) ++ combine ns fs) (combine ns gs)). rewrite IH; [rewrite <- app_assoc; reflexivity|exact N2| |lia|lia].
  intros m Hm Q. unfold dkeys in Q. rewrite map_app in Q. apply in_app_iff in Q. destruct Q as [Q|[Q|[]]]; [apply (Hd m); [right; exact Hm|exact Q]|].
  cbn [fst] in Q. subst. contradiction.
Qed.
Lemma merge_fresh {A} (ns : list string) : forall (d : list (string * A)) gs, NoDup ns -> (forall n, In n ns -> ~ In n (dkeys d)) ->
  merge_dicts d (combine ns gs) = d ++ combine ns gs.
Proof.
  induction ns as [|n ns IH]; intros d gs ND Hd; destruct gs as [|b gs]; simpl; try (rewrite app_nil_r; reflexivity).
  unfold merge_dicts. cbn [fold_left fst snd]. inversion ND as [|? ? N1 N2]; subst. rewrite dset_fresh_last by (apply Hd; left; reflexivity).
  fold (merge_dicts (d ++ [(n, b)]) (combine ns gs)). rewrite IH; [rewrite <- app_assoc; reflexivity|exact N2|].
  intros m Hm Q. unfold dkeys in Q. rewrite map_app in Q. apply in_app_iff in Q. destruct Q as [Q|[Q|[]]]; [apply (Hd m); [right; exact Hm|exact Q]|].
  cbn [fst] in Q. subst. contradiction.
Qed.
Lemma nonzero_sources_NoDup types : NoDup (dkeys types) -> NoDup (nonzero_sources types).
Proof.
  unfold nonzero_sources, dkeys. induction types as [|[k c] l IH]; intros ND; simpl; [constructor|].
  inversion ND; subst. destruct (match source_value c with Some v => nonzero v | None => false end); [|apply IH; assumption].
  simpl. constructor; [|apply IH; assumption]. intros Q. apply H1. apply in_map_iff in Q. destruct Q as (x & E & Hx). apply filter_In in Hx.
  apply in_map_iff. exists x. tauto.
Qed.
Lemma magnetostatic_field_get m cur c g : magnetostatic_field m cur c = Ok g -> b_mag g = c /\ q_items (b_elec g) = [] /\
  b_class g = (if is_3d m then Field3D_BEM else FieldRadialBEM) /\ b_cur g = (if is_3d m then empty_3d else cur).
Proof.
  unfold magnetostatic_field, three_d_bem. destruct (is_3d m); [cbn; destruct (q_rule c); cbn; intros H; [discriminate|]|intros H]; injection H as <-; auto.
Qed.

(** What the superposition returns for an excitation with currents or magnetostatic potentials *)
Lemma magnetostatic_run nu o third e0 e fields : NoDup (dkeys (e_types e0)) -> solved_excitation o third e0 = Ok e -> is_magnetostatic e = true ->
  solve_direct_superposition nu o third e0 = Ok fields ->
  exists units rhs sm cs gs, split_for_superposition e = Ok units /\ magnetostatic_solver nu e = Ok sm /\ current_charges nu e = Ok cs /\
    Forall2 (fun nx r => (sn <- magnetostatic_solver nu (snd nx) ;; c <- current_charges nu (snd nx) ;; Ok (magnetostatic_rhs nu sn c)) = Ok r) units rhs /\
    solve_matrix nu sm (magnetostatic_field (e_mesh e) cs) rhs = Ok gs /\ fields = combine (map fst units) gs.
Proof.
  intros ND Es Mag Hsup. unfold solve_direct_superposition in Hsup. rewrite Es in Hsup. cbn [bind] in Hsup.
  destruct (solved_types _ _ _ _ Es) as [Et _].
  apply bind_ok in Hsup. destruct Hsup as (units & Hu & Hsup). destruct (split_units _ _ Hu) as [Un Uu].
  assert (Fm : filter (fun nx : string * excitation => is_magnetostatic (snd nx)) units = units).
  { apply filter_all. intros [n u] Hin. destruct (Uu n u Hin) as [Q _]. cbn [snd]. rewrite (unit_is_magnetostatic _ _ _ Q). exact Mag. }
  apply bind_ok in Hsup. destruct Hsup as (rhs & Hrhs & Hsup). apply bind_ok in Hsup. destruct Hsup as (s & Hs & Hsup).
  apply bind_ok in Hsup. destruct Hsup as (fs & Hfs & Hsup). rewrite Fm in Hsup.
  apply bind_ok in Hsup. destruct Hsup as (rm & Hrm & Hsup). apply bind_ok in Hsup. destruct Hsup as (sm & Hsm & Hsup).
  apply bind_ok in Hsup. destruct Hsup as (cs & Hcs & Hsup). apply bind_ok in Hsup. destruct Hsup as (gs & Hgs & Hsup).
  injection Hsup as <-. apply mapM_ok in Hrm. exists units, rm, sm, cs, gs. repeat split; auto.
  assert (NDn : NoDup (map fst units)) by (rewrite Un; apply nonzero_sources_NoDup; rewrite Et; exact ND).
  destruct (is_electrostatic e) eqn:Elec.
  - assert (Fe : filter (fun nx : string * excitation => is_electrostatic (snd nx)) units = units).
    { apply filter_all. intros [n u] Hin. destruct (Uu n u Hin) as [Q _]. cbn [snd]. rewrite (unit_is_electrostatic _ _ _ Q). exact Elec. }
    rewrite Fe in *. apply (merge_prefix (map fst units) [] fs gs NDn); [intros n _ []| |]; rewrite map_length.
    + apply mapM_ok in Hrhs. rewrite (Forall2_length _ _ _ Hrhs). symmetry. apply (Forall2_length _ _ _ (solve_matrix_each _ _ _ _ _ Hfs)).
    + rewrite (Forall2_length _ _ _ Hrm). symmetry. apply (Forall2_length _ _ _ (solve_matrix_each _ _ _ _ _ Hgs)).
  - assert (Fe : filter (fun nx : string * excitation => is_electrostatic (snd nx)) units = []).
    { apply filter_none. intros [n u] Hin. destruct (Uu n u Hin) as [Q _]. cbn [snd]. rewrite (unit_is_electrostatic _ _ _ Q). exact Elec. }
    rewrite Fe in *. cbn [map combine]. apply (merge_fresh (map fst units) [] gs NDn). intros n _ [].
Qed.

(** Fields of the currents are linear in the currents. *)
Lemma Rsum_exchange {A B} (f : A -> B -> R) (l : list A) (m : list B) :
  Rsum (map (fun a => Rsum (map (f a) m)) l) = Rsum (map (fun b => Rsum (map (fun a => f a b) l)) m).
Proof.
  induction l as [|a l IH]; simpl.
  - induction m as [|b m IHm]; simpl; [reflexivity|]. rewrite <- IHm. lra.
  - rewrite IH, <- Rsum_plus. reflexivity.
Qed.
Definition current_part (nu : numerics) (m : mesh) (K : vec3 -> R) (k : string) : R :=
  match mapM (fun r => v <- np_take (m_points m) r ;; Ok (nu_triangle nu v)) (arows (m_triangles m)), dget (m_ptriangles m) k with
  | Ok tr, Some idx => match np_take tr idx with
                       | Ok ts => Rsum (map (fun t => / Rsum (map (source_sum (fun _ => 1)) ts) * source_sum K t) ts)
                       | Err _ => 0
                       end
  | _, _ => 0
  end.
Lemma current_evaluate nu e cs K : current_charges nu e = Ok cs ->
  evaluate K cs = Rsum (map (fun nc => match snd nc with CURRENT i => i * current_part nu (e_mesh e) K (fst nc) | _ => 0 end) (e_types e)).
Proof.
  unfold current_charges. intros H.
  assert (Z : has_current e = false -> Rsum (map (fun nc => match snd nc with CURRENT i => i * current_part nu (e_mesh e) K (fst nc) | _ => 0 end) (e_types e)) = 0).
  { unfold has_current. clear. induction (e_types e) as [|[k c] l IH]; simpl; [reflexivity|]. intros Q. apply orb_false_iff in Q. destruct Q as [Q1 Q2].
    rewrite IH by exact Q2. destruct c; try discriminate; lra. }
  destruct (arows (m_triangles (e_mesh e))) as [|t0 ts0] eqn:Et.
  - injection H as <-. unfold evaluate. cbn [empty_3d q_items map Rsum]. symmetry.
    assert (C : forall k, current_part nu (e_mesh e) K k = 0).
    { intros k. unfold current_part. rewrite Et. cbn [mapM]. destruct (dget (m_ptriangles (e_mesh e)) k) as [idx|]; [|reflexivity].
      destruct idx as [|i idx]; [reflexivity|]. unfold np_take. cbn [mapM]. unfold np_get. destruct i; reflexivity. }
    clear - C. induction (e_types e) as [|[k c] l IH]; simpl; [reflexivity|]. rewrite IH, C. destruct c; lra.
  - destruct (has_current e) eqn:Eh; cbn [negb] in H; [|injection H as <-; rewrite Z by reflexivity; reflexivity].
    apply bind_ok in H. destruct H as (tr & Htr & H). apply bind_ok in H. destruct H as (parts & Hp & H). injection H as <-. rewrite <- Et in Htr.
    unfold evaluate. cbn [q_items]. apply mapM_ok in Hp. clear - Hp Htr.
    induction Hp as [|[k c] p l ps Hc F IH]; [reflexivity|]. cbn [concat map Rsum]. rewrite map_app, Rsum_app, IH. f_equal. clear IH F.
    unfold current_items in Hc. cbn [fst snd] in *. destruct c; try (injection Hc as <-; reflexivity).
    unfold current_part. rewrite Htr. destruct (dget (m_ptriangles (e_mesh e)) k) as [idx|]; [|injection Hc as <-; simpl; lra].
    apply bind_ok in Hc. destruct Hc as (ts & Hts & Hc). injection Hc as <-. rewrite Hts. rewrite map_map, <- Rsum_scal. cbn [fst snd].
    apply Rsum_ext. intros t _. unfold Rdiv. ring.
Qed.
Lemma current_superposition nu e units cs K : NoDup (dkeys (e_types e)) -> split_for_superposition e = Ok units -> current_charges nu e = Ok cs ->
  forall csu, (forall n u, In (n, u) units -> current_charges nu u = Ok (csu u)) ->
  Rsum (map (fun nx => value_of e (fst nx) * evaluate K (csu (snd nx))) units) = evaluate K cs.
Proof.
  intros ND Hu Hcs csu Hcu. rewrite (current_evaluate _ _ _ K Hcs). destruct (split_units _ _ Hu) as [_ Uu].
  transitivity (Rsum (map (fun nx => Rsum (map (fun nc => value_of e (fst nx) * (match snd nc with CURRENT _ => value_of (snd nx) (fst nc) * current_part nu (e_mesh e) K (fst nc) | _ => 0 end)) (e_types e))) units)).
  - apply Rsum_ext. intros [n u] Hin. rewrite Rsum_scal. f_equal. cbn [snd]. rewrite (current_evaluate _ _ _ K (Hcu n u Hin)).
    destruct (Uu n u Hin) as [Q _]. assert (D : forall k c, In (k, c) (e_types e) -> dget (e_types u) k = Some (unit_of n k c)).
    { intros k c Hk. rewrite (unit_dget _ _ _ k Q), (In_dget _ _ _ ND Hk). reflexivity. }
    destruct Q as (Em & _ & F). rewrite Em. clear - F D.
    assert (D' : forall k c, In (k, c) (e_types e) -> value_of u k = match unit_of n k c with VOLTAGE_FIXED v => v | CURRENT v => v | _ => 0 end).
    { intros k c Hk. unfold value_of. rewrite (D k c Hk). reflexivity. }
    clear D. induction F as [|[k c] [k' c'] l m [E1 E2] F IH]; [reflexivity|]. cbn [fst snd map Rsum] in *. subst k' c'.
    rewrite IH by (intros k0 c0 H0; apply D'; right; exact H0). f_equal. rewrite (D' k c (or_introl eq_refl)). destruct c; reflexivity.
  - rewrite Rsum_exchange. apply Rsum_ext. intros [k c] Hk. cbn [fst snd].
    destruct c; try (clear; induction units as [|a l IH]; simpl; [reflexivity|rewrite IH; lra]).
    rewrite (Rsum_ext _ (fun a : string * excitation => current_part nu (e_mesh e) K k * (value_of e (fst a) * value_of (snd a) k))) by (intros a _; ring).
    rewrite Rsum_scal, (weighted_sum_Rsum e units k ND Hu). unfold value_of. rewrite (In_dget _ _ _ ND Hk). ring.
Qed.

Lemma lincomb_items {X Y} (items : list X) (val0 : X -> R) (w : Y -> R) (val : Y -> X -> R) (units : list Y) N :
  length items = N -> (forall x, In x items -> Rsum (map (fun y => w y * val y x) units) = val0 x) ->
  map val0 items = lincomb N (combine (map w units) (map (fun y => map (val y) items) units)).
Proof.
  intros L H.
  replace (combine (map w units) (map (fun y => map (val y) items) units)) with (map (fun y => (w y, map (val y) items)) units).
  2:{ clear. induction units as [|a l IH]; simpl; [reflexivity|]. rewrite IH. reflexivity. }
  assert (Fl : Forall (fun wx : R * list R => length (snd wx) = N) (map (fun y => (w y, map (val y) items)) units)).
  { apply Forall_forall. intros wx Hin. apply in_map_iff in Hin. destruct Hin as (y & <- & _). simpl. rewrite map_length. exact L. }
  apply nth_ext with (d := 0) (d' := 0); [rewrite map_length, lincomb_length; auto|]. intros i Hi. rewrite map_length in Hi.
  rewrite nth_lincomb; [|exact Fl|lia]. rewrite map_map. cbn [fst snd].
  destruct items as [|x0 items]; [simpl in Hi; lia|]. set (its := x0 :: items) in *.
  rewrite (nth_map' _ _ _ x0) by exact Hi. pose proof (nth_In its x0 Hi) as Hin. rewrite <- (H _ Hin).
  apply Rsum_ext. intros y _. rewrite (nth_map' _ _ _ x0) by exact Hi. reflexivity.
Qed.

(** The right hand side without magnetostatic potentials *)
Definition magnetic_value (nu : numerics) (types : list (string * condition)) (cs : charges) (vl : list point * option string) : R :=
  match snd vl with
  | Some k => match dget types k with
              | Some (MAGNETIZABLE kk) => let h := current_field (nu_center nu (fst vl)) cs in
                                          - flux_density_to_charge_factor kk * (vx h * fst (nu_normal nu (fst vl)) + vz h * snd (nu_normal nu (fst vl)))
              | _ => 0
              end
  | None => 0
  end.
Lemma magnetostatic_rhs_values nu types s cs ls : s_elements s = map2 (labelled nu types) (s_vertices s) ls ->
  (forall k v, dget types k <> Some (MAGNETOSTATIC_POT v)) ->
  magnetostatic_rhs nu s cs = map (magnetic_value nu types cs) (combine (s_vertices s) ls).
Proof.
  intros E H. unfold magnetostatic_rhs. rewrite E. generalize (s_vertices s). intros vs. clear E. revert ls.
  induction vs as [|v vs IH]; intros [|l ls]; cbn [map2 combine map]; try reflexivity. rewrite IH. f_equal.
  unfold labelled, magnetic_value. cbn [fst snd]. destruct l as [k|]; [|reflexivity]. destruct (dget types k) as [c|] eqn:Ec; [|reflexivity].
  destruct c; try reflexivity; [exfalso; apply (H k v0 Ec)|]. cbn [element_value]. destruct (nu_normal nu v); reflexivity.
Qed.

Lemma magnetization_superposition nu o third e0 fields f :
  linear_solver (nu_solve nu) -> NoDup (dkeys (e_types e0)) -> (exists k i, dget (e_types e0) k = Some (CURRENT i)) ->
  (forall k v, dget (e_types e0) k <> Some (MAGNETOSTATIC_POT v)) ->
  solve_direct_superposition nu o third e0 = Ok fields -> solve_direct nu o third e0 = Ok f -> fields <> [] ->
  forall K, Rsum (map (fun ng => value_of e0 (fst ng) * evaluate K (b_mag (snd ng))) fields) = evaluate K (b_mag f).
Proof.
  intros Hlin ND0 (kc & ic & Hc) HP Hsup Hdir Nf K. unfold solve_direct in Hdir.
  destruct (solved_excitation o third e0) as [e|x] eqn:Es; [|discriminate]. cbn [bind] in Hdir.
  destruct (solved_types _ _ _ _ Es) as [Et _].
  assert (V0 : forall k, value_of e0 k = value_of e k) by (intros k; unfold value_of; rewrite Et; reflexivity).
  assert (Mag : is_magnetostatic e = true).
  { unfold is_magnetostatic. apply existsb_exists. exists (kc, CURRENT ic). split; [rewrite Et; apply dget_In; exact Hc|reflexivity]. }
  destruct (magnetostatic_run nu o third e0 e fields ND0 Es Mag Hsup) as (units & rhs & sm & cs & gs & Hu & Hsm & Hcs & Hr & Hgs & ->).
  rewrite Mag in Hdir. cbn [orb andb] in Hdir. apply bind_ok in Hdir. destruct Hdir as (u1 & _ & Hdir).
  assert (Hm : exists g, solve_magnetostatic nu e = Ok g /\ evaluate K (b_mag f) = evaluate K (b_mag g)).
  { destruct (is_electrostatic e).
    - apply bind_ok in Hdir. destruct Hdir as (fe & Hfe & Hdir). apply bind_ok in Hdir. destruct Hdir as (fm & Hfm & Hdir). exists fm. split; [exact Hfm|].
      unfold bem_add in Hdir. apply bind_ok in Hdir. destruct Hdir as (q1 & _ & Hdir). apply bind_ok in Hdir. destruct Hdir as (q2 & Hq & Hdir).
      apply bind_ok in Hdir. destruct Hdir as (q3 & _ & Hdir). destruct (b_class fe); [|discriminate]. injection Hdir as <-. cbn [radial_bem b_mag].
      apply evaluate_items. apply (charges_add_empty _ _ _ Hq). unfold solve_electrostatic in Hfe. apply bind_ok in Hfe. destruct Hfe as (s & _ & Hfe).
      apply bind_ok in Hfe. destruct Hfe as (fs & Hfs & Hfe). destruct (solve_matrix_single _ _ _ _ _ Hfs) as (g0 & ->). cbn in Hfe. injection Hfe as ->.
      apply solve_matrix_ok in Hfs. destruct Hfs as (xs & _ & F2). inversion F2; subst. apply electrostatic_field_get in H2. tauto.
    - exists f. auto. }
  destruct Hm as (g & Hg & ->). unfold solve_magnetostatic in Hg. rewrite Hsm, Hcs in Hg. cbn [bind] in Hg.
  apply bind_ok in Hg. destruct Hg as (fs & Hfs & Hg). destruct (solve_matrix_single _ _ _ _ _ Hfs) as (g0 & ->). cbn in Hg. injection Hg as ->.
  destruct (new_solver_ok _ _ _ _ Hsm) as (names & ls & A1 & A2 & A3 & A4 & A5 & A6 & _). destruct (split_units _ _ Hu) as [Un Uu].
  assert (HPe : forall k v, dget (e_types e) k <> Some (MAGNETOSTATIC_POT v)) by (rewrite Et; exact HP).
  assert (C : forall (us : list (string * excitation)) hs, map (fun ng : string * bem => value_of e0 (fst ng) * evaluate K (b_mag (snd ng))) (combine (map fst us) hs) =
            map (fun wg : R * bem => fst wg * evaluate K (b_mag (snd wg))) (combine (map (fun nx => value_of e (fst nx)) us) hs)).
  { induction us as [|a us IH]; intros [|b hs]; simpl; try reflexivity. rewrite IH, V0. reflexivity. }
  rewrite C. set (csu := fun u => match current_charges nu u with Ok c => c | Err _ => empty_3d end).
  assert (Hcsu : forall n u, In (n, u) units -> current_charges nu u = Ok (csu u)).
  { intros n u Hin. destruct (In_nth_error _ _ Hin) as [i Hi]. destruct (Forall2_nth_l _ _ _ _ _ Hr Hi) as (r1 & _ & R2). cbn [snd] in R2.
    apply bind_ok in R2. destruct R2 as (sn & _ & R2). apply bind_ok in R2. destruct R2 as (c & R2 & _). unfold csu. rewrite R2. reflexivity. }
  assert (Erhs : rhs = map (fun nx => map (magnetic_value nu (e_types e) (csu (snd nx))) (combine (s_vertices sm) ls)) units).
  { assert (G : forall us rs, Forall2 (fun nx r => (sn <- magnetostatic_solver nu (snd nx) ;; c <- current_charges nu (snd nx) ;; Ok (magnetostatic_rhs nu sn c)) = Ok r) us rs ->
      (forall x, In x us -> In x units) -> rs = map (fun nx => map (magnetic_value nu (e_types e) (csu (snd nx))) (combine (s_vertices sm) ls)) us).
    { induction 1 as [|[n u] b us rs E F IH]; intros Hin; [reflexivity|]. simpl. rewrite IH by (intros x Hx; apply Hin; right; exact Hx). f_equal.
      cbn [snd] in E. apply bind_ok in E. destruct E as (su & Hsu & E). assert (I : In (n, u) units) by (apply Hin; left; reflexivity).
      rewrite (Hcsu n u I) in E. cbn [bind] in E. injection E as <-. destruct (Uu n u I) as [Q _].
      destruct (unit_solver nu in_magnetostatic_matrix e u n sm su (or_intror eq_refl) Q Hsm Hsu) as (B1 & _ & _ & _ & B5).
      specialize (B5 names ls A1 A2). rewrite <- B1 in B5 at 1. rewrite (magnetostatic_rhs_values nu (e_types u) su (csu u) ls B5).
      - rewrite B1. apply map_ext. intros [v l]. unfold magnetic_value. cbn [fst snd]. destruct l as [k|]; [|reflexivity].
        rewrite (unit_dget _ _ _ k Q). destruct (dget (e_types e) k) as [c|]; [|reflexivity]. destruct c; reflexivity.
      - intros k v Hk. rewrite (unit_dget _ _ _ k Q) in Hk. destruct (dget (e_types e) k) as [c|] eqn:Ec; [|discriminate].
        cbn [option_map] in Hk. destruct c; try discriminate. cbn [unit_of] in Hk. injection Hk as ->. exact (HPe k v Ec). }
    apply (G units rhs Hr). auto. }
  pose proof (Forall2_length _ _ _ Hr) as Lr.
  apply (weighted_core nu sm (magnetostatic_field (e_mesh e) cs) b_mag _ rhs gs (magnetostatic_rhs nu sm cs) g K Hlin).
  - intros c h Hh. apply magnetostatic_field_get in Hh. tauto.
  - exact Hgs.
  - exact Hfs.
  - rewrite map_length. exact Lr.
  - rewrite A4, map2_length, A3. lia.
  - rewrite (magnetostatic_rhs_values nu (e_types e) sm cs ls A4 HPe), Erhs.
    apply lincomb_items; [rewrite combine_length; lia|]. intros [v l] _. unfold magnetic_value. cbn [fst snd].
    assert (Z : Rsum (map (fun y : string * excitation => value_of e (fst y) * 0) units) = 0).
    { clear. induction units as [|a us IH]; simpl; lra. }
    destruct l as [k|]; [|exact Z]. destruct (dget (e_types e) k) as [c|]; [|exact Z]. destruct c; try exact Z. cbv zeta.
    assert (Sp : superposes cs (map (fun nx => (value_of e (fst nx), csu (snd nx))) units)).
    { intros K'. rewrite map_map. cbn [fst snd]. symmetry. apply (current_superposition nu e units cs K'); auto. rewrite Et. exact ND0. }
    rewrite (superposes_current_field _ _ (nu_center nu v) Sp), vsum_coords, !map_map. cbn [vx vy vz vscale fst snd].
    rewrite !(Rmult_comm (Rsum _)), <- !Rsum_scal, <- Rsum_plus, <- Rsum_scal. apply Rsum_ext. intros y _. ring.
Qed.

Lemma source_free K c : q_items c = [] -> evaluate K c = 0.
Proof. apply evaluate_empty. Qed.
Lemma no_charges_potential g p : q_items (b_mag g) = [] -> magnetostatic_potential_at_point g p = 0.
Proof. intros H. unfold magnetostatic_potential_at_point, potential_radial, potential_3d. destruct (b_class g); apply evaluate_empty; exact H. Qed.
Lemma no_charges_field g p : q_items (b_mag g) = [] -> q_items (b_cur g) = [] -> magnetostatic_field_at_point g p = vzero.
Proof.
  intros H H'. unfold magnetostatic_field_at_point, current_field, field_radial, field_3d, from_cylinder, vzero, vadd.
  destruct (b_class g); [|rewrite !(evaluate_empty _ _ H); f_equal; ring].
  rewrite !(evaluate_empty _ _ H), !(evaluate_empty _ _ H'). destruct (Rle_dec _ _); cbn; f_equal; ring.
Qed.
Lemma no_charges_electric_potential g p : q_items (b_elec g) = [] -> electrostatic_potential_at_point g p = 0.
Proof. intros H. unfold electrostatic_potential_at_point, potential_radial, potential_3d. destruct (b_class g); apply evaluate_empty; exact H. Qed.
Lemma no_charges_electric_field g p : q_items (b_elec g) = [] -> electrostatic_field_at_point g p = vzero.
Proof.
  intros H. unfold electrostatic_field_at_point, field_radial, field_3d, from_cylinder, vzero.
  destruct (b_class g); rewrite !(evaluate_empty _ _ H); [destruct (Rle_dec _ _)|]; cbn; f_equal; ring.
Qed.

(** What a successful superposition with currents or magnetostatic potentials contains, and the full solution *)
Lemma magnetostatic_fields nu o third e0 fields : NoDup (dkeys (e_types e0)) -> is_magnetostatic e0 = true ->
  solve_direct_superposition nu o third e0 = Ok fields ->
  exists e cs, solved_excitation o third e0 = Ok e /\ current_charges nu e = Ok cs /\ map fst fields = nonzero_sources (e_types e0) /\
    forall n g, In (n, g) fields -> q_items (b_elec g) = [] /\ b_class g = (if is_3d (e_mesh e) then Field3D_BEM else FieldRadialBEM) /\
      b_cur g = (if is_3d (e_mesh e) then empty_3d else cs).
Proof.
  intros ND Mag0 Hsup. destruct (solved_excitation o third e0) as [e|x] eqn:Es; [|unfold solve_direct_superposition in Hsup; rewrite Es in Hsup; discriminate].
  destruct (solved_types _ _ _ _ Es) as [Et _]. assert (Mag : is_magnetostatic e = true) by (unfold is_magnetostatic in *; rewrite Et; exact Mag0).
  destruct (magnetostatic_run nu o third e0 e fields ND Es Mag Hsup) as (units & rhs & sm & cs & gs & Hu & Hsm & Hcs & Hr & Hgs & ->).
  exists e, cs. split; [reflexivity|]. split; [exact Hcs|]. destruct (split_units _ _ Hu) as [Un _].
  pose proof (solve_matrix_ok _ _ _ _ _ Hgs) as (xs & _ & F2).
  pose proof (Forall2_length _ _ _ Hr) as L1. pose proof (Forall2_length _ _ _ (solve_matrix_each _ _ _ _ _ Hgs)) as L2. split.
  - rewrite <- Et, <- Un. clear - L1 L2. assert (L : length (map fst units) = length gs) by (rewrite map_length; congruence). revert L. generalize (map fst units) gs.
    induction l as [|a l IH]; intros [|b bs] L; simpl in *; try discriminate; [reflexivity|]. rewrite IH; [reflexivity|lia].
  - intros n g Hin. apply in_combine_r in Hin. destruct (In_nth_error _ _ Hin) as [i Hi]. destruct (Forall2_nth_r _ _ _ _ _ F2 Hi) as (c & _ & Hc).
    apply magnetostatic_field_get in Hc. destruct Hc as (_ & C1 & C2 & C3). auto.
Qed.
Lemma solve_electrostatic_get nu e f : solve_electrostatic nu e = Ok f ->
  q_items (b_mag f) = [] /\ q_items (b_cur f) = [] /\ b_class f = (if is_3d (e_mesh e) then Field3D_BEM else FieldRadialBEM).
Proof.
  unfold solve_electrostatic. intros H. apply bind_ok in H. destruct H as (s & _ & H). apply bind_ok in H. destruct H as (fs & Hf & H).
  destruct (solve_matrix_single _ _ _ _ _ Hf) as (g0 & ->). cbn in H. injection H as ->.
  apply solve_matrix_ok in Hf. destruct Hf as (xs & _ & F2). inversion F2 as [|? ? ? ? Hc]; subst. apply electrostatic_field_get in Hc. tauto.
Qed.
Lemma solve_magnetostatic_get nu e f : solve_magnetostatic nu e = Ok f ->
  exists cs, current_charges nu e = Ok cs /\ q_items (b_elec f) = [] /\ b_cur f = (if is_3d (e_mesh e) then empty_3d else cs) /\
    b_class f = (if is_3d (e_mesh e) then Field3D_BEM else FieldRadialBEM).
Proof.
  unfold solve_magnetostatic. intros H. apply bind_ok in H. destruct H as (s & _ & H). apply bind_ok in H. destruct H as (cs & Hcs & H).
  apply bind_ok in H. destruct H as (fs & Hf & H). exists cs. split; [exact Hcs|].
  destruct (solve_matrix_single _ _ _ _ _ Hf) as (g0 & ->). cbn in H. injection H as ->.
  apply solve_matrix_ok in Hf. destruct Hf as (xs & _ & F2). inversion F2 as [|? ? ? ? Hc]; subst. apply magnetostatic_field_get in Hc. tauto.
Qed.
Lemma magnetostatic_direct nu o third e0 e f : is_magnetostatic e0 = true -> solved_excitation o third e0 = Ok e -> solve_direct nu o third e0 = Ok f ->
  b_class f = (if is_3d (e_mesh e) then Field3D_BEM else FieldRadialBEM) /\
  exists cs, current_charges nu e = Ok cs /\ q_items (b_cur f) = q_items (if is_3d (e_mesh e) then empty_3d else cs).
Proof.
  intros Mag0 Es Hdir. unfold solve_direct in Hdir. rewrite Es in Hdir. cbn [bind] in Hdir. destruct (solved_types _ _ _ _ Es) as [Et _].
  assert (Mag : is_magnetostatic e = true) by (unfold is_magnetostatic in *; rewrite Et; exact Mag0). rewrite Mag in Hdir. cbn [orb andb] in Hdir.
  apply bind_ok in Hdir. destruct Hdir as (u1 & _ & Hdir). destruct (is_electrostatic e).
  - apply bind_ok in Hdir. destruct Hdir as (fe & Hfe & Hdir). apply bind_ok in Hdir. destruct Hdir as (fm & Hfm & Hdir).
    apply solve_electrostatic_get in Hfe. destruct Hfe as (E1 & E2 & E3). apply solve_magnetostatic_get in Hfm. destruct Hfm as (cs & Hcs & M1 & M2 & M3).
    unfold bem_add in Hdir. apply bind_ok in Hdir. destruct Hdir as (q1 & _ & Hdir). apply bind_ok in Hdir. destruct Hdir as (q2 & _ & Hdir).
    apply bind_ok in Hdir. destruct Hdir as (q3 & Hq & Hdir). rewrite E3 in Hdir. destruct (is_3d (e_mesh e)); [discriminate|]. injection Hdir as <-. split; [reflexivity|].
    exists cs. split; [exact Hcs|]. cbn [radial_bem b_cur]. rewrite (charges_add_empty _ _ _ Hq E2), M2. reflexivity.
  - apply solve_magnetostatic_get in Hdir. destruct Hdir as (cs & Hcs & M1 & M2 & M3). split; [exact M3|]. exists cs. split; [exact Hcs|]. rewrite M2. reflexivity.
Qed.
Lemma current_field_items p a b : q_items a = q_items b -> current_field p a = current_field p b.
Proof. intros H. unfold current_field, evaluate. rewrite H. reflexivity. Qed.
