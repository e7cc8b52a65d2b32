(** C50 Collections of paths and surfaces. *)
From Verif Require Import Base BaseFacts CollectionModel.

Lemma new_elems {A} (h : heap A) (l : list A) : new_collection h (map Elem l) = Ok (h ++ [l], Ref (length h)).
Proof. unfold new_collection. assert (E : mapM (fun x : item A => match x with Elem a => Ok a | Nested _ => Err AssertionError end) (map Elem l) = Ok l) by (induction l as [|a l IH]; cbn; [|rewrite IH]; reflexivity). rewrite E. reflexivity. Qed.
Lemma new_contents {A} (h : heap A) l : contents (h ++ [l]) (Ref (length h)) = Some l.
Proof. cbn. rewrite nth_error_app2, Nat.sub_diag by lia. reflexivity. Qed.

(** The collections that exist keep their contents. *)
Definition extends {A} (h h' : heap A) : Prop := exists more, h' = h ++ more.
Lemma extends_refl {A} (h : heap A) : extends h h. Proof. exists []. symmetry. apply app_nil_r. Qed.
Lemma extends_trans {A} (h1 h2 h3 : heap A) : extends h1 h2 -> extends h2 h3 -> extends h1 h3.
Proof. intros (m1 & ->) (m2 & ->). exists (m1 ++ m2). symmetry. apply app_assoc. Qed.
Lemma extends_contents {A} (h h' : heap A) x l : extends h h' -> contents h x = Some l -> contents h' x = Some l.
Proof. intros (m & ->). destruct x; cbn; auto. intros H. rewrite nth_error_app1; [exact H|]. apply nth_error_Some. rewrite H. discriminate. Qed.
Lemma np_get_some {A} (l : list A) i x : nth_error l i = Some x -> np_get l i = Ok x.
Proof. unfold np_get. intros ->. reflexivity. Qed.

Definition is_leaf {A} (e : expr A) : bool := match e with Leaf _ => true | _ => false end.
Definition is_one {A} (x : value A) : bool := match x with One _ => true | _ => false end.
Definition good {A} (h : heap A) (e : expr A) (r : result (heap A * value A)) : Prop :=
  exists h' x, r = Ok (h', x) /\ extends h h' /\ contents h' x = Some (leaves e) /\ is_one x = is_leaf e.

(** Surfaces: every bracketing gives one new collection with the surfaces in order, and changes no existing collection. *)
Theorem C50_surfaces {A} (h : heap A) (e : expr A) : good h e (eval surface_add h e).
Proof.
  revert h. induction e as [a|e1 IH1 e2 IH2]; intros h; cbn [eval].
  - exists h, (One a). repeat split. apply extends_refl.
  - destruct (IH1 h) as (h1 & x & -> & X1 & C1 & K1). cbn [bind]. destruct (IH2 h1) as (h2 & y & -> & X2 & C2 & K2). cbn [bind].
    pose proof (extends_contents _ _ _ _ X2 C1) as C1'. pose proof (extends_trans _ _ _ X1 X2) as X.
    assert (G : forall l, l = leaves e1 ++ leaves e2 -> good h (Add e1 e2) (Ok (h2 ++ [l], Ref (length h2)))).
    { intros l ->. exists (h2 ++ [leaves e1 ++ leaves e2]), (Ref (length h2)). split; [reflexivity|]. split; [eapply extends_trans; [exact X|exists [leaves e1 ++ leaves e2]; reflexivity]|].
      split; [apply new_contents|reflexivity]. }
    destruct x as [a|r|], y as [b|s|]; cbn in C1', C2; try discriminate; unfold surface_add.
    + injection C1' as E1. injection C2 as E2. change [Elem a; Elem b] with (map (@Elem A) [a; b]). rewrite new_elems. apply G. rewrite <- E1, <- E2. reflexivity.
    + rewrite (np_get_some _ _ _ C2). cbn [bind]. injection C1' as E1. change (Elem a :: map Elem (leaves e2)) with (map (@Elem A) (a :: leaves e2)). rewrite new_elems. apply G. rewrite <- E1. reflexivity.
    + rewrite (np_get_some _ _ _ C1'). cbn [bind]. injection C2 as E2. change [Elem b] with (map (@Elem A) [b]). rewrite <- map_app, new_elems. apply G. rewrite <- E2. reflexivity.
    + rewrite (np_get_some _ _ _ C1'), (np_get_some _ _ _ C2). cbn [bind]. rewrite <- map_app, new_elems. apply G. reflexivity.
Qed.
Print Assumptions C50_surfaces.

(** Paths: true exactly for the expressions in which no single path is added to a collection on its right; all others raise. *)
Theorem C50_paths_partial {A} (h : heap A) (e : expr A) :
  (path_plus_collection e = false -> good h e (eval path_add h e)) /\ (path_plus_collection e = true -> eval path_add h e = Err AssertionError).
Proof.
  revert h. induction e as [a|e1 IH1 e2 IH2]; intros h; [split; [intros _; exists h, (One a); repeat split; apply extends_refl|discriminate]|].
  assert (N : path_plus_collection (Add e1 e2) = (is_leaf e1 && negb (is_leaf e2)) || path_plus_collection e1 || path_plus_collection e2) by (destruct e1, e2; reflexivity).
  rewrite N. cbn [eval]. destruct (path_plus_collection e1) eqn:P1.
  { split; [rewrite !orb_true_r; discriminate|]. intros _. rewrite (proj2 (IH1 h) eq_refl). reflexivity. }
  destruct (proj1 (IH1 h) eq_refl) as (h1 & x & E1 & X1 & C1 & K1). rewrite E1. cbn [bind]. destruct (path_plus_collection e2) eqn:P2.
  { split; [rewrite !orb_true_r; discriminate|]. intros _. rewrite (proj2 (IH2 h1) eq_refl). reflexivity. }
  destruct (proj1 (IH2 h1) eq_refl) as (h2 & y & E2 & X2 & C2 & K2). rewrite E2. cbn [bind]. rewrite !orb_false_r, <- K1, <- K2.
  pose proof (extends_contents _ _ _ _ X2 C1) as C1'. pose proof (extends_trans _ _ _ X1 X2) as X.
  assert (G : forall l, l = leaves e1 ++ leaves e2 -> good h (Add e1 e2) (Ok (h2 ++ [l], Ref (length h2)))).
  { intros l ->. exists (h2 ++ [leaves e1 ++ leaves e2]), (Ref (length h2)). split; [reflexivity|]. split; [eapply extends_trans; [exact X|exists [leaves e1 ++ leaves e2]; reflexivity]|].
    split; [apply new_contents|reflexivity]. }
  destruct x as [a|r|], y as [b|s|]; cbn in C1', C2; try discriminate; unfold path_add; cbn [is_one andb negb].
  + injection C1' as F1. injection C2 as F2. split; [intros _|discriminate]. change [Elem a; Elem b] with (map (@Elem A) [a; b]). rewrite new_elems. apply G. rewrite <- F1, <- F2. reflexivity.
  + split; [discriminate|]. intros _. rewrite (np_get_some _ _ _ C2). reflexivity.
  + split; [intros _|discriminate]. rewrite (np_get_some _ _ _ C1'). cbn [bind]. injection C2 as F2. change [Elem b] with (map (@Elem A) [b]). rewrite <- map_app, new_elems. apply G. rewrite <- F2. reflexivity.
  + split; [intros _|discriminate]. rewrite (np_get_some _ _ _ C1'), (np_get_some _ _ _ C2). cbn [bind]. rewrite <- map_app, new_elems. apply G. reflexivity.
Qed.
Print Assumptions C50_paths_partial.
(** So + of paths is not associative: the property is false of the code. *)
Theorem C50_paths_refuted {A} (h : heap A) (a b c : A) : good h (Add (Add (Leaf a) (Leaf b)) (Leaf c)) (eval path_add h (Add (Add (Leaf a) (Leaf b)) (Leaf c))) /\
  eval path_add h (Add (Leaf a) (Add (Leaf b) (Leaf c))) = Err AssertionError.
Proof. split; apply C50_paths_partial; reflexivity. Qed.
Print Assumptions C50_paths_refuted.
(** += does extend the collection object in place, but leaves the variable with the value None, for both kinds of collections. *)
Theorem C50_iadd_refuted {A} add (h : heap A) (r : nat) (y : value A) l m : contents h (Ref r) = Some l -> contents h y = Some m ->
  exists h', augmented_add add h (Ref r) y = Ok (h', PyNone) /\ contents h' (Ref r) = Some (l ++ m) /\ length h' = length h /\ (forall s, s <> r -> contents h' (Ref s) = contents h (Ref s)).
Proof.
  cbn [contents augmented_add]. intros Hr Hy. unfold collection_iadd. rewrite (np_get_some _ _ _ Hr). cbn [bind].
  assert (L : r < length h) by (apply nth_error_Some; rewrite Hr; discriminate).
  assert (S : forall v, np_set h r v = Ok (upd h r v)) by (intros v; unfold np_set; destruct (r <? length h) eqn:E; [reflexivity|apply Nat.ltb_ge in E; lia]).
  assert (U : forall v, nth_error (upd h r v) r = Some v /\ length (upd h r v) = length h /\ forall s, s <> r -> nth_error (upd h r v) s = nth_error h s).
  { intros v. clear - L. revert r L. induction h as [|a h IH]; intros [|r] L; cbn in *; try lia.
    - repeat split. intros [|s] N; [congruence|reflexivity].
    - destruct (IH r ltac:(lia)) as (U1 & U2 & U3). repeat split; [exact U1|lia|]. intros [|s] N; [reflexivity|]. apply U3. congruence. }
  destruct y as [b|s|]; cbn [contents] in Hy; [injection Hy as <-| |discriminate].
  - exists (upd h r (l ++ [b])). rewrite S. cbn [bind]. destruct (U (l ++ [b])) as (U1 & U2 & U3). auto.
  - rewrite (np_get_some _ _ _ Hy). cbn [bind]. exists (upd h r (l ++ m)). rewrite S. cbn [bind]. destruct (U (l ++ m)) as (U1 & U2 & U3). auto.
Qed.
Print Assumptions C50_iadd_refuted.
Example C50_nonvacuous : eval surface_add [] (Add (Leaf 1) (Add (Leaf 2) (Leaf 3))) = Ok ([[2; 3]; [1; 2; 3]], Ref 1) /\
  eval path_add [] (Add (Add (Leaf 1) (Leaf 2)) (Leaf 3)) = Ok ([[1; 2]; [1; 2; 3]], Ref 1) /\
  eval path_add [] (Add (Leaf 1) (Add (Leaf 2) (Leaf 3))) = Err AssertionError.
Proof. repeat split. Qed.
