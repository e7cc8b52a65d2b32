(** The outwardness tests compute the sign of the enclosed area / volume (C11). *)
From Coq Require Import Reals Lra Permutation.
From Verif Require Import Base BaseFacts Float64 OrientModel MeshModel MeshSpec MeshFacts OrientConsist
  Vec GeomModel GeomFacts OutwardSpec.
Local Open Scope R_scope.

Lemma Rsum_app l m : Rsum (l ++ m) = Rsum l + Rsum m.
Proof. induction l as [|x l IH]; simpl; [ring|rewrite IH; ring]. Qed.
Lemma Rsum_perm l m : Permutation l m -> Rsum l = Rsum m.
Proof. induction 1; simpl; lra. Qed.
Lemma Rsum_plus {A} (f g : A -> R) l : Rsum (map (fun x => f x + g x) l) = Rsum (map f l) + Rsum (map g l).
Proof. induction l as [|x l IH]; simpl; [ring|rewrite IH; ring]. Qed.
Lemma Rsum_scal {A} k (f : A -> R) l : Rsum (map (fun x => k * f x) l) = k * Rsum (map f l).
Proof. induction l as [|x l IH]; simpl; [ring|rewrite IH; ring]. Qed.
Lemma Rsum_ext {A} (f g : A -> R) l : (forall x, In x l -> f x = g x) -> Rsum (map f l) = Rsum (map g l).
Proof. intros H. f_equal. apply map_ext_in. exact H. Qed.
Lemma Rsum_flat_map {A B} (f : B -> R) (g : A -> list B) l :
  Rsum (map f (flat_map g l)) = Rsum (map (fun a => Rsum (map f (g a))) l).
Proof. induction l as [|x l IH]; simpl; [reflexivity|]. rewrite map_app, Rsum_app, IH. reflexivity. Qed.
Lemma Rsum_pos {A} (f : A -> R) l : l <> [] -> (forall x, In x l -> 0 < f x) -> 0 < Rsum (map f l).
Proof.
  intros Hne H. destruct l as [|x l]; [congruence|]. clear Hne. revert x H.
  induction l as [|y l IH]; intros x H; simpl in *.
  - specialize (H x (or_introl eq_refl)). lra.
  - pose proof (H x (or_introl eq_refl)). pose proof (IH y (fun z Hz => H z (or_intror Hz))). lra.
Qed.

(** ** Lines *)
Lemma telescope (f : nat -> R) els : closed_loop els ->
  Rsum (map (fun r => f (line_end r) - f (line_start r)) els) = 0.
Proof.
  intros H. rewrite (Rsum_ext _ (fun r => f (line_end r) + (-1) * f (line_start r)))
    by (intros; ring).
  rewrite Rsum_plus, Rsum_scal.
  rewrite <- (map_map line_end f), <- (map_map line_start f).
  rewrite (Rsum_perm _ _ (Permutation_map f H)). ring.
Qed.

Lemma line_term_value a b : vy a = 0 -> vy b = 0 -> a <> b ->
  line_term a b = (vx a + vx b) / 2 * (vz b - vz a).
Proof.
  intros Ha Hb Hne. unfold line_term, normal_2d. cbv zeta. cbn [fst].
  assert (E : norm (vsub b a) = norm_2d (vz b - vz a) (- (vx b - vx a))).
  { unfold norm, norm_2d, vsub; simpl. rewrite Ha, Hb. f_equal. ring. }
  rewrite E. assert (norm_2d (vz b - vz a) (- (vx b - vx a)) <> 0).
  { rewrite <- E. intros H. apply (proj1 (norm_zero _)) in H. apply Hne.
    unfold vsub, vzero in H. injection H as H1 H2 H3. apply vec_eq; lra. }
  field. assumption.
Qed.

(** For a closed polygon the sum of the test is the shoelace area. *)
Lemma line_sum_area pos els :
  (forall r, In r els -> (2 <= length r)%nat /\ planar_line pos r) -> closed_loop els ->
  line_outward_sum pos els = signed_area pos els.
Proof.
  intros Hp Hc. unfold line_outward_sum, signed_area.
  pose proof (telescope (fun i => vx (pos i) * vz (pos i) / 2) els Hc) as Ht.
  rewrite (Rsum_ext _ (fun r => (vx (pos (line_start r)) * vz (pos (line_end r))
                       - vx (pos (line_end r)) * vz (pos (line_start r))) / 2 +
      (vx (pos (line_end r)) * vz (pos (line_end r)) / 2 -
       vx (pos (line_start r)) * vz (pos (line_start r)) / 2))).
  - rewrite Rsum_plus, Ht. ring.
  - intros r Hr. destruct (Hp r Hr) as [Hl (Ha & Hb & Hne)].
    destruct r as [|a [|b r]]; simpl in *; try lia. rewrite line_term_value by assumption. field.
Qed.

Lemma signed_area_translate pos c els : closed_loop els ->
  signed_area (fun i => vsub (pos i) c) els = signed_area pos els.
Proof.
  intros Hc. unfold signed_area.
  pose proof (telescope (fun i => (vx (pos i) * vz c - vz (pos i) * vx c) / 2) els Hc) as Ht.
  rewrite (Rsum_ext _ (fun r => (vx (pos (line_start r)) * vz (pos (line_end r))
                       - vx (pos (line_end r)) * vz (pos (line_start r))) / 2 +
     ((vx (pos (line_end r)) * vz c - vz (pos (line_end r)) * vx c) / 2 -
      (vx (pos (line_start r)) * vz c - vz (pos (line_start r)) * vx c) / 2))).
  - rewrite Rsum_plus, Ht. ring.
  - intros r _. simpl. field.
Qed.

Lemma reversed_ends r : (length r = 2 \/ length r = 4)%nat ->
  line_start (reversed_line r) = line_end r /\ line_end (reversed_line r) = line_start r.
Proof. intros H. destruct r as [|a [|b [|c [|d [|e r]]]]]; simpl in *; try lia; auto. Qed.

Lemma signed_area_reverse pos (els : list row) :
  Forall (fun r : row => length r = 2 \/ length r = 4)%nat els ->
  signed_area pos (map reversed_line els) = - signed_area pos els.
Proof.
  intros H. unfold signed_area. rewrite map_map.
  rewrite (Rsum_ext _ (fun r => (-1) * ((vx (pos (line_start r)) * vz (pos (line_end r))
                       - vx (pos (line_end r)) * vz (pos (line_start r))) / 2))).
  - rewrite Rsum_scal. ring.
  - intros r Hr. rewrite Forall_forall in H. destruct (reversed_ends r (H r Hr)) as [-> ->]. field.
Qed.

Lemma closed_loop_reverse (els : list row) :
  Forall (fun r : row => length r = 2 \/ length r = 4)%nat els ->
  closed_loop els -> closed_loop (map reversed_line els).
Proof.
  unfold closed_loop. intros H Hc. rewrite !map_map.
  rewrite (map_ext_in (fun r => line_start (reversed_line r)) line_end),
          (map_ext_in (fun r => line_end (reversed_line r)) line_start).
  - apply Permutation_sym; assumption.
  - intros r Hr. rewrite Forall_forall in H. apply (reversed_ends r (H r Hr)).
  - intros r Hr. rewrite Forall_forall in H. apply (reversed_ends r (H r Hr)).
Qed.

Lemma NoDup_map_nth {A} (f : A -> nat) (l : list A) :
  (forall i j a b, i <> j -> nth_error l i = Some a -> nth_error l j = Some b -> f a <> f b) ->
  NoDup (map f l).
Proof.
  intros H. apply NoDup_nth_error. rewrite map_length. intros i j Hi E.
  rewrite !nth_error_map in E. destruct (nth_error l i) as [a|] eqn:Ea; [|apply nth_error_None in Ea; lia].
  destruct (nth_error l j) as [b|] eqn:Eb; [|discriminate]. simpl in E. injection E as E.
  destruct (Nat.eq_dec i j) as [|n]; [assumption|]. exfalso. apply (H i j a b n Ea Eb E).
Qed.

Lemma degree_starts_ends (els : list row) v :
  Forall (fun r : row => length r = 2 \/ length r = 4)%nat els ->
  degree els v = (count_occ Nat.eq_dec (map line_start els) v + count_occ Nat.eq_dec (map line_end els) v)%nat.
Proof.
  unfold degree. induction 1 as [|r els Hr H IH]; [reflexivity|].
  cbn [map concat]. rewrite count_occ_app, IH.
  destruct r as [|a [|b r]]; simpl in Hr; try lia. cbn [firstn line_start line_end count_occ].
  destruct (Nat.eq_dec a v), (Nat.eq_dec b v); lia.
Qed.

(** Every vertex has two line ends or none, and lines meet head to tail: a closed loop. *)
Lemma head_to_tail_closed (els : list row) :
  Forall (fun r : row => length r = 2 \/ length r = 4)%nat els ->
  (forall v, degree els v = 0 \/ degree els v = 2)%nat -> head_to_tail els -> closed_loop els.
Proof.
  intros Hw Hd Hh. unfold closed_loop.
  assert (Hrow : forall i r, nth_error els i = Some r -> exists s, r = line_start r :: line_end r :: s).
  { intros i r Hr. apply nth_error_In in Hr. rewrite Forall_forall in Hw. apply Hw in Hr.
    destruct r as [|a [|b r]]; simpl in *; try lia. eauto. }
  assert (N1 : NoDup (map line_start els)).
  { apply NoDup_map_nth. intros i j a b Hij Ha Hb. destruct (Hrow _ _ Ha) as [s Es], (Hrow _ _ Hb) as [t Et].
    rewrite Es in Ha. rewrite Et in Hb. apply (Hh i j _ _ _ _ _ _ Hij Ha Hb). }
  assert (N2 : NoDup (map line_end els)).
  { apply NoDup_map_nth. intros i j a b Hij Ha Hb. destruct (Hrow _ _ Ha) as [s Es], (Hrow _ _ Hb) as [t Et].
    rewrite Es in Ha. rewrite Et in Hb. apply (Hh i j _ _ _ _ _ _ Hij Ha Hb). }
  apply NoDup_Permutation; [assumption|assumption|]. intros v.
  rewrite (NoDup_count_occ Nat.eq_dec) in N1, N2. specialize (N1 v). specialize (N2 v).
  specialize (Hd v). rewrite degree_starts_ends in Hd by assumption.
  rewrite !(count_occ_In Nat.eq_dec). lia.
Qed.

Lemma degree_sf (els els' : list row) v :
  Forall (fun r : row => length r = 2 \/ length r = 4)%nat els ->
  Forall2 line_sf els els' -> degree els' v = degree els v.
Proof.
  intros Hw H. unfold degree. induction H as [|r r' els els' Hr H IH]; [reflexivity|].
  apply Forall_cons_iff in Hw. destruct Hw as [Hl Hw]. cbn [map concat].
  rewrite !count_occ_app, IH by assumption. f_equal.
  destruct Hr as [->| ->]; [reflexivity|].
  destruct r as [|a [|b [|c [|d [|e r]]]]]; simpl in Hl; try lia; simpl;
    destruct (Nat.eq_dec a v), (Nat.eq_dec b v); reflexivity.
Qed.

Lemma planar_sf pos r r' : (length r = 2 \/ length r = 4)%nat -> line_sf r r' ->
  planar_line pos r -> planar_line pos r'.
Proof.
  intros Hl [->| ->] H; [assumption|]. unfold planar_line in *.
  destruct (reversed_ends r Hl) as [-> ->]. destruct H as (A & B & C). auto.
Qed.

(** Orienting a connected closed loop: the result is a closed loop whose enclosed area is
    positive (outwards) or negative (inwards) unless it is zero. *)
Lemma mapM_flip_line (els els' : list row) : mapM flip_line els = Ok els' -> els' = map reversed_line els.
Proof.
  intros H. apply mapM_ok in H. induction H as [|r r' els els' Hr H IH]; [reflexivity|].
  simpl. rewrite <- IH. f_equal. apply flip_line_ok; assumption.
Qed.

Lemma ensure_line_outward o pts pos b (els els' : list row) :
  (forall l, o_line_outwards o pts l = line_outwards pos l) ->
  all_width 2 els || all_width 4 els = true ->
  (forall v, degree els v = 0 \/ degree els v = 2)%nat -> inner_points_free els -> ends_connected els ->
  (forall r, In r els -> planar_line pos r) ->
  ensure_line_orientation o pts b els = Ok els' ->
  closed_loop els' /\ head_to_tail els' /\
  (signed_area pos els' <> 0 -> if b then 0 < signed_area pos els' else signed_area pos els' < 0).
Proof.
  intros Ho Hw Hd Hi Hc Hp H.
  assert (Hw' : Forall (fun r : row => length r = 2 \/ length r = 4)%nat els).
  { apply orb_true_iff in Hw. destruct Hw as [Hw|Hw]; apply all_width_Forall in Hw;
      eapply Forall_impl; [|exact Hw| |exact Hw]; simpl; auto. }
  unfold ensure_line_orientation in H. apply bind_ok in H. destruct H as (els1 & H1 & H).
  pose proof (reorient_lines_sf _ _ H1) as S1.
  assert (Hd1 : forall v, (degree els v <= 2)%nat) by (intros v; destruct (Hd v); lia).
  pose proof (reorient_lines_consistent els els1 Hw Hd1 Hi Hc H1) as Hh.
  assert (Hw1 : Forall (fun r : row => length r = 2 \/ length r = 4)%nat els1).
  { apply Forall_forall. intros r' Hr'. apply In_nth_error in Hr'. destruct Hr' as [k Hk].
    destruct (Forall2_nth_r _ _ _ _ _ S1 Hk) as (r & Hr & Hs). rewrite (line_sf_length _ _ Hs).
    apply nth_error_In in Hr. rewrite Forall_forall in Hw'. apply Hw'; assumption. }
  assert (Hcl : closed_loop els1).
  { apply head_to_tail_closed; [assumption| |assumption]. intros v. rewrite (degree_sf els els1); auto. }
  assert (Hp1 : forall r, In r els1 -> (2 <= length r)%nat /\ planar_line pos r).
  { intros r' Hr'. split; [rewrite Forall_forall in Hw1; apply Hw1 in Hr'; lia|].
    apply In_nth_error in Hr'. destruct Hr' as [k Hk].
    destruct (Forall2_nth_r _ _ _ _ _ S1 Hk) as (r & Hr & Hs). apply nth_error_In in Hr.
    rewrite Forall_forall in Hw'. eapply planar_sf; eauto. }
  rewrite Ho in H. unfold line_outwards in H.
  pose proof (line_sum_area pos els1 Hp1 Hcl) as Hsum. rewrite Hsum in H.
  destruct (Bool.eqb (Rgt0 (signed_area pos els1)) b) eqn:E.
  - injection H as <-. split; [assumption|]. split; [assumption|]. intros Hne. apply eqb_prop in E.
    destruct b; [apply Rgt0_true in E; assumption|]. apply Rgt0_false in E. lra.
  - apply mapM_flip_line in H. subst els'. split; [apply closed_loop_reverse; assumption|]. split.
    + intros i j a1 b1 s1 c1 d1 t1 Hij Ha Hb. rewrite nth_error_map in Ha, Hb.
      destruct (nth_error els1 i) as [r|] eqn:Er; [|discriminate].
      destruct (nth_error els1 j) as [s|] eqn:Es; [|discriminate]. simpl in Ha, Hb.
      injection Ha as Ha. injection Hb as Hb.
      assert (Lr : (length r = 2 \/ length r = 4)%nat).
      { rewrite Forall_forall in Hw1. apply Hw1. eapply nth_error_In; eauto. }
      assert (Ls : (length s = 2 \/ length s = 4)%nat).
      { rewrite Forall_forall in Hw1. apply Hw1. eapply nth_error_In; eauto. }
      destruct (reversed_ends r Lr) as [R1 R2], (reversed_ends s Ls) as [S1' S2'].
      rewrite Ha in R1, R2. rewrite Hb in S1', S2'. simpl in R1, R2, S1', S2'.
      destruct r as [|x [|y r]]; simpl in Lr; try lia. destruct s as [|z [|w s]]; simpl in Ls; try lia.
      simpl in *. subst. destruct (Hh i j _ _ _ _ _ _ Hij Er Es). auto.
    + rewrite signed_area_reverse by assumption. intros Hne.
      destruct (Rgt0 (signed_area pos els1)) eqn:G; destruct b; try discriminate E.
      * apply Rgt0_true in G. lra.
      * apply Rgt0_false in G. lra.
Qed.

(** Star-shaped loops: when all normals lie on one side of [c], a loop of positive area has
    all normals pointing away from [c]. *)
Lemma line_side pos c r :
  (let a := pos (line_start r) in
   let '(nx, nz) := line_normal a (pos (line_end r)) in nx * (vx a - vx c) + nz * (vz a - vz c))
  = 2 * ((vx (vsub (pos (line_start r)) c) * vz (vsub (pos (line_end r)) c)
          - vx (vsub (pos (line_end r)) c) * vz (vsub (pos (line_start r)) c)) / 2).
Proof. simpl. field. Qed.

Lemma star_outward pos c els :
  closed_loop els -> els <> [] ->
  (forall r, In r els -> line_away pos c r) \/ (forall r, In r els -> line_towards pos c r) ->
  0 < signed_area pos els -> forall r, In r els -> line_away pos c r.
Proof.
  intros Hcl Hne [H|H] Ha; [assumption|]. exfalso.
  rewrite <- (signed_area_translate pos c els Hcl) in Ha.
  assert (0 < - signed_area (fun i => vsub (pos i) c) els); [|lra].
  unfold signed_area.
  match goal with |- 0 < - Rsum (map ?f _) => set (g := f) end.
  replace (- Rsum (map g els)) with (Rsum (map (fun r => (-1) * g r) els)) by (rewrite Rsum_scal; ring).
  apply Rsum_pos; [assumption|]. intros r Hr. specialize (H r Hr). unfold line_towards in H.
  pose proof (line_side pos c r) as E. cbv zeta in H, E. unfold line_normal in H, E. cbv iota beta in H, E.
  rewrite E in H. unfold g. lra.
Qed.

(** ** Triangles *)
(** The difference between the flux of (x,0,0) and of a third of the position vector through a
    triangle is a sum over its directed edges. *)
Definition edge_flux (a b : vec3) : R :=
  - (1/3) * ((2 * vx a * vz a + vx a * vz b + vx b * vz a + 2 * vx b * vz b) / 6) * (vy b - vy a)
  + 1/3 * ((2 * vx a * vy a + vx a * vy b + vx b * vy a + 2 * vx b * vy b) / 6) * (vz b - vz a).

Lemma edge_flux_swap a b : edge_flux b a = - edge_flux a b.
Proof. unfold edge_flux. field. Qed.

Lemma triangle_term_value a b c : triangle_area a b c <> 0 ->
  triangle_term a b c = det3 a b c / 6 + (edge_flux a b + edge_flux b c + edge_flux c a).
Proof.
  intros H. unfold triangle_term. cbv zeta.
  assert (norm (cross (vsub b a) (vsub c a)) <> 0).
  { intros E. apply H. unfold triangle_area. rewrite E. field. }
  replace ((vx a + vx b + vx c) / 3 * (vx (cross (vsub b a) (vsub c a)) / norm (cross (vsub b a) (vsub c a))) *
    norm (cross (vsub b a) (vsub c a)) / 2)
   with ((vx a + vx b + vx c) / 3 * vx (cross (vsub b a) (vsub c a)) / 2) by (field; assumption).
  unfold det3, edge_flux, dot, cross, vsub; simpl. field.
Qed.

Lemma edges_cancel (f : nat * nat -> R) els :
  (forall e, f (swap_edge e) = - f e) -> closed_surface els ->
  Rsum (map f (flat_map tri_edges els)) = 0.
Proof.
  intros Hf Hc. pose proof (Rsum_perm _ _ (Permutation_map f Hc)) as H.
  rewrite map_map in H.
  rewrite (Rsum_ext (fun x => f (swap_edge x)) (fun x => (-1) * f x)) in H by (intros x _; rewrite Hf; ring).
  rewrite Rsum_scal in H. lra.
Qed.

Lemma triangle_sum_volume pos els :
  (forall r, In r els -> proper_area pos r) -> closed_surface els ->
  triangle_outward_sum pos els = signed_volume pos els.
Proof.
  intros Hp Hc. unfold triangle_outward_sum, signed_volume.
  pose proof (edges_cancel (fun e => edge_flux (pos (fst e)) (pos (snd e))) els) as Ht.
  specialize (Ht (fun e => edge_flux_swap _ _) Hc). rewrite Rsum_flat_map in Ht.
  rewrite (Rsum_ext _ (fun r => tri_det pos vzero r / 6 +
     Rsum (map (fun e => edge_flux (pos (fst e)) (pos (snd e))) (tri_edges r)))).
  - rewrite Rsum_plus, Ht. ring.
  - intros r Hr. specialize (Hp r Hr). destruct r as [|a [|b [|c [|d r]]]]; simpl in Hp; try contradiction.
    simpl. rewrite triangle_term_value by assumption.
    unfold det3, dot, cross, vsub, vzero; simpl. field.
Qed.

(** Translation. *)
Definition edge_shift (c a b : vec3) : R :=
  dot c (cross a b).
Lemma tri_det_translate pos c r : length r = 3%nat ->
  tri_det pos c r = tri_det pos vzero r -
    Rsum (map (fun e => edge_shift c (pos (fst e)) (pos (snd e))) (tri_edges r)).
Proof.
  intros H. destruct r as [|x [|y [|z [|w r]]]]; simpl in H; try lia. simpl.
  unfold det3, edge_shift, dot, cross, vsub, vzero; simpl. ring.
Qed.

Lemma signed_volume_translate pos c els :
  Forall (fun r : row => length r = 3%nat) els -> closed_surface els ->
  Rsum (map (fun r => tri_det pos c r / 6) els) = signed_volume pos els.
Proof.
  intros Hw Hc. unfold signed_volume.
  pose proof (edges_cancel (fun e => edge_shift c (pos (fst e)) (pos (snd e))) els) as Ht.
  assert (Hs : forall e, edge_shift c (pos (fst (swap_edge e))) (pos (snd (swap_edge e)))
                = - edge_shift c (pos (fst e)) (pos (snd e))).
  { intros e. unfold edge_shift, dot, cross; simpl. ring. }
  specialize (Ht Hs Hc). rewrite Rsum_flat_map in Ht.
  rewrite (Rsum_ext _ (fun r => tri_det pos vzero r / 6 + (-1/6) *
     Rsum (map (fun e => edge_shift c (pos (fst e)) (pos (snd e))) (tri_edges r)))).
  - rewrite Rsum_plus, Rsum_scal, Ht. ring.
  - intros r Hr. rewrite Forall_forall in Hw. rewrite tri_det_translate by (apply Hw; assumption). field.
Qed.

Lemma signed_volume_reverse pos (els : list row) :
  Forall (fun r : row => length r = 3%nat) els ->
  signed_volume pos (map reversed_triangle els) = - signed_volume pos els.
Proof.
  intros Hw. unfold signed_volume. rewrite map_map.
  rewrite (Rsum_ext _ (fun r => (-1) * (tri_det pos vzero r / 6))).
  - rewrite Rsum_scal. ring.
  - intros r Hr. rewrite Forall_forall in Hw. apply Hw in Hr.
    destruct r as [|x [|y [|z [|w r]]]]; simpl in Hr; try lia. simpl.
    unfold det3, dot, cross, vsub, vzero; simpl. field.
Qed.

Lemma tri_edges_In r a b : length r = 3%nat -> In (a, b) (tri_edges r) <-> directed_edge r a b.
Proof.
  intros H. destruct r as [|x [|y [|z [|w r]]]]; simpl in H; try lia. simpl.
  split; [intros [E|[E|[E|[]]]]; injection E as <- <-; auto|].
  intros [[-> ->]|[[-> ->]|[-> ->]]]; auto.
Qed.

(** Every edge belongs to exactly two triangles... as a condition on unoriented triangles: each
    triangle's edge is an edge of another triangle. *)
Definition every_edge_shared (els : list row) : Prop :=
  forall i r a b, nth_error els i = Some r -> directed_edge r a b ->
    exists j s, j <> i /\ nth_error els j = Some s /\ (directed_edge s a b \/ directed_edge s b a).

Lemma directed_reversed' r a b : directed_edge (reversed_triangle r) a b <-> directed_edge r b a.
Proof. destruct r as [|x [|y [|z [|w r]]]]; simpl; tauto. Qed.

Lemma NoDup_app_intro {A} (l m : list A) :
  NoDup l -> NoDup m -> (forall x, In x l -> ~ In x m) -> NoDup (l ++ m).
Proof.
  induction 1 as [|a l Ha Hl IH]; intros Hm H; simpl; [assumption|]. constructor.
  - rewrite in_app_iff. intros [H1|H1]; [auto|]. apply (H a); [left; reflexivity|assumption].
  - apply IH; [assumption|]. intros x Hx. apply H. right; assumption.
Qed.

Lemma every_edge_shared_sf (els els' : list row) :
  Forall (fun r : row => length r = 3%nat) els ->
  Forall2 tri_sf els els' -> every_edge_shared els -> every_edge_shared els'.
Proof.
  intros Hw S H i r' a b Hi Hd.
  destruct (Forall2_nth_r _ _ _ _ _ S Hi) as (r & Hr & Hs).
  assert (Hd0 : directed_edge r a b \/ directed_edge r b a).
  { destruct Hs as [->| ->]; [auto|]. right. apply directed_reversed'; assumption. }
  assert (G : forall x y, directed_edge r x y -> exists j s, j <> i /\ nth_error els' j = Some s /\
     (directed_edge s x y \/ directed_edge s y x)).
  { intros x y Hxy. destruct (H i r x y Hr Hxy) as (j & s & Hj & Hs' & He).
    destruct (Forall2_nth_l _ _ _ _ _ S Hs') as (s' & Es' & Hss).
    exists j, s'. split; [assumption|]. split; [assumption|].
    destruct Hss as [->| ->]; [assumption|]. rewrite !directed_reversed'. tauto. }
  destruct Hd0 as [Hd0|Hd0]; [apply G; assumption|].
  destruct (G _ _ Hd0) as (j & s & Hj & Hs' & He). exists j, s. tauto.
Qed.

Lemma NoDup_flat_map_nth {A B} (f : A -> list B) (l : list A) :
  (forall i a, nth_error l i = Some a -> NoDup (f a)) ->
  (forall i j a b x, i <> j -> nth_error l i = Some a -> nth_error l j = Some b -> In x (f a) -> ~ In x (f b)) ->
  NoDup (flat_map f l).
Proof.
  induction l as [|a l IH]; intros H1 H2; simpl; [constructor|].
  apply NoDup_app_intro.
  - apply (H1 0%nat). reflexivity.
  - apply IH.
    + intros i x Hx. apply (H1 (S i)). assumption.
    + intros i j x y z Hij Hx Hy. apply (H2 (S i) (S j)); auto.
  - intros x Hx Hx'. apply in_flat_map in Hx'. destruct Hx' as (y & Hy & Hxy).
    apply In_nth_error in Hy. destruct Hy as [k Hk]. apply (H2 0%nat (S k) a y x); auto.
Qed.

Lemma opposite_closed (els : list row) :
  Forall proper_triangle els -> opposite_edges els -> every_edge_shared els -> closed_surface els.
Proof.
  intros Hp Ho Hs. unfold closed_surface.
  assert (Hl : forall i r, nth_error els i = Some r -> length r = 3%nat).
  { intros i r Hr. apply nth_error_In in Hr. rewrite Forall_forall in Hp. apply Hp in Hr.
    destruct Hr as (x & y & z & -> & _). reflexivity. }
  assert (N : NoDup (flat_map tri_edges els)).
  { apply NoDup_flat_map_nth.
    - intros i r Hr. apply nth_error_In in Hr. rewrite Forall_forall in Hp. apply Hp in Hr.
      destruct Hr as (x & y & z & -> & A & B & C). simpl.
      repeat constructor; simpl; intuition congruence.
    - intros i j r s [a b] Hij Hr Hs' Hx Hy.
      apply tri_edges_In in Hx; [|eapply Hl; eauto]. apply tri_edges_In in Hy; [|eapply Hl; eauto].
      exact (Ho i j r s a b Hij Hr Hs' Hx Hy). }
  assert (Hsw : forall e, swap_edge (swap_edge e) = e) by (intros [x y]; reflexivity).
  assert (Hin : forall e, In e (flat_map tri_edges els) -> In (swap_edge e) (flat_map tri_edges els)).
  { intros [a b] He. apply in_flat_map in He. destruct He as (r & Hr & He).
    apply In_nth_error in Hr. destruct Hr as [i Hi]. apply tri_edges_In in He; [|eapply Hl; eauto].
    destruct (Hs i r a b Hi He) as (j & s & Hj & Es & [Hd|Hd]).
    - exfalso. exact (Ho j i s r a b Hj Es Hi Hd He).
    - apply in_flat_map. exists s. split; [eapply nth_error_In; eauto|].
      apply tri_edges_In; [eapply Hl; eauto|assumption]. }
  apply NoDup_Permutation; [assumption| |].
  - apply FinFun.Injective_map_NoDup; [|assumption]. intros [a b] [c d] E. injection E as -> ->. reflexivity.
  - intros e. rewrite in_map_iff. split.
    + intros He. exists (swap_edge e). split; [apply Hsw|apply Hin; assumption].
    + intros (e' & <- & He'). apply Hin; assumption.
Qed.

Lemma mapM_flip_triangle (els els' : list row) : mapM flip_triangle els = Ok els' -> els' = map reversed_triangle els.
Proof.
  intros H. apply mapM_ok in H. induction H as [|r r' els els' Hr H IH]; [reflexivity|].
  simpl. rewrite <- IH. f_equal. apply flip_triangle_ok; assumption.
Qed.

Lemma opposite_edges_reverse (els : list row) :
  opposite_edges els -> opposite_edges (map reversed_triangle els).
Proof.
  intros H i j r s a b Hij Hr Hs Ha Hb. rewrite nth_error_map in Hr, Hs.
  destruct (nth_error els i) as [r0|] eqn:Er; [|discriminate].
  destruct (nth_error els j) as [s0|] eqn:Es; [|discriminate]. simpl in Hr, Hs.
  injection Hr as <-. injection Hs as <-. rewrite directed_reversed' in Ha, Hb.
  exact (H i j r0 s0 b a Hij Er Es Ha Hb).
Qed.

Lemma proper_sf r r' : proper_triangle r -> tri_sf r r' -> proper_triangle r'.
Proof.
  intros (x & y & z & -> & A & B & C) [->| ->]; [exists x, y, z; auto|].
  exists x, z, y. simpl. auto.
Qed.
Lemma proper_area_sf pos r r' : proper_area pos r -> tri_sf r r' -> proper_area pos r'.
Proof.
  intros H [->| ->]; [assumption|]. destruct r as [|a [|b [|c [|d r]]]]; simpl in *; try contradiction.
  rewrite triangle_area_swap. assumption.
Qed.

Lemma ensure_triangle_outward o pts pos b (els els' : list row) :
  (forall l, o_tri_outwards o pts l = triangle_outwards pos l) ->
  Forall proper_triangle els -> comparison_ok o pts els ->
  (exists ref, Forall2 tri_sf els ref /\ opposite_edges ref) ->
  (forall i, (i < length els)%nat -> edge_connected els 0 i) -> every_edge_shared els ->
  (forall r, In r els -> proper_area pos r) ->
  ensure_triangle_orientation o pts b els = Ok els' ->
  closed_surface els' /\ opposite_edges els' /\
  (signed_volume pos els' <> 0 -> if b then 0 < signed_volume pos els' else signed_volume pos els' < 0).
Proof.
  intros Ho Hp Hc Href Hcon Hsh Har H.
  assert (Hw : Forall (fun r : row => length r = 3%nat) els).
  { eapply Forall_impl; [|exact Hp]. intros r (x & y & z & -> & _). reflexivity. }
  unfold ensure_triangle_orientation in H. apply bind_ok in H. destruct H as (els1 & H1 & H).
  pose proof (reorient_triangles_sf _ _ _ _ H1) as S1.
  pose proof (reorient_triangles_consistent o pts els els1 Hw Hc Href Hcon H1) as Hopp.
  assert (Hall : forall P : row -> Prop, (forall r r', P r -> tri_sf r r' -> P r') ->
                 (forall r, In r els -> P r) -> forall r, In r els1 -> P r).
  { intros P HP HP0 r' Hr'. apply In_nth_error in Hr'. destruct Hr' as [k Hk].
    destruct (Forall2_nth_r _ _ _ _ _ S1 Hk) as (r & Hr & Hs). eapply HP; [|exact Hs].
    apply HP0. eapply nth_error_In; eauto. }
  assert (Hp1 : Forall proper_triangle els1).
  { apply Forall_forall. apply (Hall proper_triangle proper_sf). apply Forall_forall. assumption. }
  assert (Hw1 : Forall (fun r : row => length r = 3%nat) els1).
  { eapply Forall_impl; [|exact Hp1]. intros r (x & y & z & -> & _). reflexivity. }
  assert (Har1 : forall r, In r els1 -> proper_area pos r).
  { apply (Hall (proper_area pos) (proper_area_sf pos)). assumption. }
  pose proof (every_edge_shared_sf _ _ Hw S1 Hsh) as Hsh1.
  pose proof (opposite_closed els1 Hp1 Hopp Hsh1) as Hcl.
  rewrite Ho in H. unfold triangle_outwards in H.
  pose proof (triangle_sum_volume pos els1 Har1 Hcl) as Hsum. rewrite Hsum in H.
  destruct (Bool.eqb (Rgt0 (signed_volume pos els1)) b) eqn:E.
  - injection H as <-. split; [assumption|]. split; [assumption|]. intros Hne. apply eqb_prop in E.
    destruct b; [apply Rgt0_true in E; assumption|]. apply Rgt0_false in E. lra.
  - apply mapM_flip_triangle in H. subst els'.
    assert (Hopp' : opposite_edges (map reversed_triangle els1)) by (apply opposite_edges_reverse; assumption).
    assert (S2 : Forall2 tri_sf els1 (map reversed_triangle els1)).
    { clear. induction els1; simpl; constructor; [right; reflexivity|assumption]. }
    split; [|split; [assumption|]].
    + apply opposite_closed; [|assumption|eapply every_edge_shared_sf; eauto].
      apply Forall_forall. intros r Hr. apply in_map_iff in Hr. destruct Hr as (r0 & <- & Hr).
      rewrite Forall_forall in Hp1. eapply proper_sf; [apply Hp1; exact Hr|right; reflexivity].
    + rewrite signed_volume_reverse by assumption. intros Hne.
      destruct (Rgt0 (signed_volume pos els1)) eqn:G; destruct b; try discriminate E.
      * apply Rgt0_true in G. lra.
      * apply Rgt0_false in G. lra.
Qed.

Lemma tri_side_det pos c r : proper_area pos r ->
  exists k, 0 < k /\ tri_side pos c r = k * tri_det pos c r.
Proof.
  intros H. destruct r as [|x [|y [|z [|w r]]]]; simpl in H; try contradiction.
  pose proof (area_normal (pos x) (pos y) (pos z)) as En.
  assert (P : 0 < norm (raw_normal_3d (pos x) (pos y) (pos z))).
  { pose proof (norm_nonneg (raw_normal_3d (pos x) (pos y) (pos z))). lra. }
  exists (/ norm (raw_normal_3d (pos x) (pos y) (pos z))). split; [apply Rinv_0_lt_compat; assumption|].
  simpl. rewrite normal_scale. set (k := / _). rewrite raw_normal_cross.
  unfold det3, dot, cross, vsub; simpl. ring.
Qed.

Lemma star_outward_3d pos c (els : list row) :
  closed_surface els -> els <> [] -> (forall r, In r els -> proper_area pos r) ->
  (forall r, In r els -> 0 < tri_side pos c r) \/ (forall r, In r els -> tri_side pos c r < 0) ->
  0 < signed_volume pos els -> forall r, In r els -> 0 < tri_side pos c r.
Proof.
  intros Hcl Hne Har [H|H] Ha; [assumption|]. exfalso.
  assert (Hw : Forall (fun r : row => length r = 3%nat) els).
  { apply Forall_forall. intros r Hr. apply Har in Hr. destruct r as [|x [|y [|z [|w r]]]]; simpl in Hr; try contradiction.
    reflexivity. }
  rewrite <- (signed_volume_translate pos c els Hw Hcl) in Ha.
  assert (0 < - Rsum (map (fun r => tri_det pos c r / 6) els)); [|lra].
  replace (- Rsum (map (fun r => tri_det pos c r / 6) els))
    with (Rsum (map (fun r => (-1) * (tri_det pos c r / 6)) els)) by (rewrite Rsum_scal; ring).
  apply Rsum_pos; [assumption|]. intros r Hr. specialize (H r Hr).
  destruct (tri_side_det pos c r (Har r Hr)) as (k & Hk & E). rewrite E in H.
  assert (tri_det pos c r < 0); [|lra].
  apply Rnot_le_lt. intros Hd. pose proof (Rmult_le_pos k _ (Rlt_le _ _ Hk) Hd). lra.
Qed.
