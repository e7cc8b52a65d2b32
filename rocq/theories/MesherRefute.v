(** Runs of the mesher on exact rationals: surfaces whose meshes are wrong. *)
From Coq Require Import Reals QArith Qreals Lra Psatz Sorted.
From Verif Require Import Base BaseFacts Vec GeomModel QuadModel KronrodFacts SurfaceModel
  MesherModel MesherFacts MesherRun MesherSpec MesherSurf MesherEnd MesherWhole MesherTotal MesherGentle MesherShapes MesherSim.

Section Checks.
  Local Open Scope Q_scope.
  Definition qtri : Type := qpair * qpair * qpair.
  Definition q_tri (ps : list qpair) (t : nat * nat * nat) : qtri :=
    (nth (fst (fst t)) ps (0, 0), nth (snd (fst t)) ps (0, 0), nth (snd t) ps (0, 0)).
  Definition q_turn (a b p : qpair) : Q := (snd b - snd a) * (fst p - fst a) - (fst b - fst a) * (snd p - snd a).
  Definition q_in (t : qtri) (p : qpair) : bool :=
    let '(a, b, c) := t in Qle_bool 0 (q_turn a b p) && Qle_bool 0 (q_turn b c p) && Qle_bool 0 (q_turn c a p).
  Definition q_strict (t : qtri) (p : qpair) : bool :=
    let '(a, b, c) := t in Qltb 0 (q_turn a b p) && Qltb 0 (q_turn b c p) && Qltb 0 (q_turn c a p).
  Definition q_pos (t : qtri) : bool := let '(a, b, c) := t in Qltb 0 (q_turn a b c).
End Checks.

Local Open Scope R_scope.
Definition r2 (p : qpair) : ppoint := (Q2R (fst p), Q2R (snd p)).
Definition tri_R (t : qtri) : ptri := let '(a, b, c) := t in (r2 a, r2 b, r2 c).
Lemma q_turn_R a b p : Q2R (q_turn a b p) = turn (r2 a) (r2 b) (r2 p).
Proof. unfold q_turn, turn, r2. cbn [fst snd]. rewrite !Q2R_minus, !Q2R_mult, !Q2R_minus. reflexivity. Qed.
Lemma Q2R_0 : Q2R 0 = 0.
Proof. unfold Q2R. cbn. ring. Qed.
Lemma Qle_bool_R q : Qle_bool 0 q = true <-> 0 <= Q2R q.
Proof.
  rewrite Qle_bool_iff. split; intros H; [apply Qle_Rle in H; rewrite Q2R_0 in H; exact H|].
  apply Rle_Qle. rewrite Q2R_0. exact H.
Qed.
Lemma Qltb_0 q : Qltb 0 q = true <-> 0 < Q2R q.
Proof. rewrite Qltb_R, Q2R_0. apply Rltb_true. Qed.
Lemma q_in_R t p : q_in t p = true <-> tri_closed (tri_R t) (r2 p).
Proof.
  destruct t as ((a, b), c). unfold q_in, tri_closed, tri_R. rewrite !andb_true_iff, !Qle_bool_R, !q_turn_R. tauto.
Qed.
Lemma q_strict_R t p : q_strict t p = true <-> tri_interior (tri_R t) (r2 p).
Proof.
  destruct t as ((a, b), c). unfold q_strict, tri_interior, tri_R. rewrite !andb_true_iff, !Qltb_0, !q_turn_R. tauto.
Qed.
Lemma q_pos_R t : q_pos t = true <-> (let '(a, b, c) := tri_R t in 0 < turn a b c).
Proof. destruct t as ((a, b), c). unfold q_pos, tri_R. rewrite Qltb_0, q_turn_R. tauto. Qed.

(** the parameter triangles of a run are determined when the surface is one to one *)
Definition determined (s : surface) (S : qpair -> qvec) (p : qpair) : Prop :=
  forall u v, sfun s u v = Ok (q2r (S p)) -> u = Q2R (fst p) /\ v = Q2R (snd p).
Lemma corner_det s S ps p k : Forall (determined s S) ps ->
  corner_is (sfun s) Ok (map (fun p => q2r (S p)) ps) p k -> p = r2 (nth k ps (0, 0)%Q).
Proof.
  intros Hd (x & Hx & Hs). rewrite nth_error_map in Hx. destruct (nth_error ps k) as [y|] eqn:Ey; [|discriminate].
  cbn [option_map] in Hx. injection Hx as <-. rewrite Forall_forall in Hd.
  destruct (Hd y (nth_error_In _ _ Ey) _ _ Hs) as (A & B). rewrite (nth_error_nth _ _ _ Ey).
  destruct p as (u, v). cbn [fst snd] in *. unfold r2. rewrite A, B. reflexivity.
Qed.
Lemma tri_det s S ps : Forall (determined s S) ps -> forall T tris,
  Forall2 (tri_on (sfun s) Ok (map (fun p => q2r (S p)) ps)) T tris -> T = map (fun k => tri_R (q_tri ps k)) tris.
Proof.
  intros Hd. induction 1 as [|t k T tris H _ IH]; [reflexivity|]. cbn [map]. f_equal; [|exact IH].
  destruct t as ((a, b), c), k as ((ka, kb), kc). destruct H as (A & B & C).
  apply (corner_det s S ps) in A, B, C; try exact Hd. rewrite A, B, C. reflexivity.
Qed.
Lemma not_covers ps tris p ua ub va vb :
  forallb (fun k => negb (q_in (q_tri ps k) p)) tris = true ->
  ua <= Q2R (fst p) <= ub -> va <= Q2R (snd p) <= vb ->
  ~ covers ua ub va vb (map (fun k => tri_R (q_tri ps k)) tris).
Proof.
  intros H Hu Hv Hc. destruct (Hc _ _ Hu Hv) as (t & Hin & Ht). apply in_map_iff in Hin. destruct Hin as (k & <- & Hk).
  rewrite forallb_forall in H. specialize (H k Hk). change (Q2R (fst p), Q2R (snd p)) with (r2 p) in Ht. apply q_in_R in Ht. rewrite Ht in H. discriminate.
Qed.
Lemma overlap ps tris p x y kx ky : (x < y)%nat -> nth_error tris x = Some kx -> nth_error tris y = Some ky ->
  q_strict (q_tri ps kx) p && q_strict (q_tri ps ky) p = true ->
  ~ no_overlap (map (fun k => tri_R (q_tri ps k)) tris).
Proof.
  intros Hxy Hx Hy H. apply andb_true_iff in H. destruct H as (H1 & H2). apply q_strict_R in H1, H2. intros HN.
  revert x y Hxy Hx Hy HN. induction tris as [|k tris IH]; intros x y Hxy Hx Hy HN; [destruct x; discriminate|].
  cbn [map] in HN. inversion HN as [|? ? N1 N2]; subst. destruct x as [|x], y as [|y]; try lia.
  - cbn in Hx, Hy. injection Hx as ->. apply nth_error_In in Hy. rewrite Forall_map, Forall_forall in N1. apply (N1 ky Hy (r2 p)). tauto.
  - apply (IH x y); [lia|exact Hx|exact Hy|exact N2].
Qed.
Lemma q_run_mono n m S ms sd Nx Ny rs out : (n <= m)%nat ->
  q_mesh n S ms sd Nx Ny rs = Ok out -> q_mesh m S ms sd Nx Ny rs = Ok out.
Proof. apply mesher_mono. Qed.
Lemma q_surface_run_on s S ms sd rs n out : 0 <= Q2R ms -> Forall (runs_on s (fun p => q2r (S p))) rs -> rects s = map q2r2 rs ->
  q_mesh n S ms sd (length (sbps1 s) + 1) (length (sbps2 s) + 1) rs = Ok out ->
  forall fuel, (n <= fuel)%nat ->
  mesh_surface fuel s (fun _ => Ok (Q2R ms)) sd = Ok ((map (fun p => q2r (S p)) (fst (fst out)), snd (fst out)), snd out).
Proof.
  intros Hm HS Hr H fuel Hf. rewrite (q_mesh_R fuel s S ms sd rs Hm HS Hr), (q_run_mono n fuel _ _ _ _ _ _ _ Hf H). reflexivity.
Qed.

Definition q_ordered (r : (Q * Q) * (Q * Q)) : bool := Qle_bool (fst (fst r)) (snd (fst r)) && Qle_bool (fst (snd r)) (snd (snd r)).
Lemma q_ordered_R r : q_ordered r = true -> Q2R (fst (fst r)) <= Q2R (snd (fst r)) /\ Q2R (fst (snd r)) <= Q2R (snd (snd r)).
Proof. unfold q_ordered. rewrite andb_true_iff, !Qle_bool_iff. intros (A & B). split; apply Qle_Rle; assumption. Qed.
Lemma q_surface_run s S ms sd rs n out : 0 <= Q2R ms -> (forall u v, sfun s (Q2R u) (Q2R v) = Ok (q2r (S (u, v)))) -> rects s = map q2r2 rs ->
  forallb q_ordered rs = true ->
  q_mesh n S ms sd (length (sbps1 s) + 1) (length (sbps2 s) + 1) rs = Ok out ->
  forall fuel, (n <= fuel)%nat ->
  mesh_surface fuel s (fun _ => Ok (Q2R ms)) sd = Ok ((map (fun p => q2r (S p)) (fst (fst out)), snd (fst out)), snd out).
Proof.
  intros Hm HS Hr Ho. apply q_surface_run_on; try assumption. apply Forall_forall. intros r Hin. rewrite forallb_forall in Ho.
  destruct (q_ordered_R r (Ho r Hin)) as (A & B). split; [exact A|]. split; [exact B|]. intros u v _ _. apply HS.
Qed.

Definition qresult : Type := result ((list qpair * list (nat * nat * nat)) * (nat * list index_map * list (list quad))).

Lemma with_run {X} (run : X) (ck : X -> bool) (Q : Prop) : ck run = true -> (forall r, run = r -> ck r = true -> Q) -> Q.
Proof. intros H G. apply (G run); [reflexivity|exact H]. Qed.

(** ** A sheet that is not covered *)
Definition sheet : surface :=
  mksurf (fun u v => Ok (V3 (v * (101/100 - (u - 1/2) * (u - 1/2) * (1/25))) (11/10 * u) 0)) 4 4 [] [] None.
Definition q_sheet (p : qpair) : qvec :=
  (snd p * ((101#100) - (fst p - (1#2)) * (fst p - (1#2)) * (1#25)), (11#10) * fst p, 0)%Q.
Definition sheet_run := q_mesh 100 q_sheet (201#200) 2 1 1 [((0, 4), (0, 4))%Q].
Definition hole : qpair := (1#2, 3#4)%Q.
Definition q_eq (p q : qpair) : bool := Qeq_bool (fst p) (fst q) && Qeq_bool (snd p) (snd q).
Definition sheet_check (r : qresult) : bool :=
  match r with
  | Ok (ps, tris, _) =>
      forallb (fun k => negb (q_in (q_tri ps k) hole)) tris &&
      match nth_error tris 34, nth_error tris 3 with
      | Some k, Some k' => q_eq (nth (fst (fst k)) ps (0, 0)%Q) (1, 0)%Q && q_eq (nth (snd (fst k)) ps (0, 0)%Q) (1, 1#2)%Q &&
          q_eq (nth (snd (fst k')) ps (0, 0)%Q) (1, 1#4)%Q
      | _, _ => false
      end && forallb (fun p => Qle_bool 0 (fst p) && Qle_bool (fst p) 4) ps
  | Err _ => false
  end.
Lemma sheet_checked : sheet_check sheet_run = true.
Proof. vm_compute. reflexivity. Qed.
Lemma q_lit n d : Q2R (n # d) = IZR n / IZR (Zpos d).
Proof. reflexivity. Qed.
Lemma q_eq_R p q : q_eq p q = true -> r2 p = r2 q.
Proof. unfold q_eq. rewrite andb_true_iff, !Qeq_bool_iff. intros (A & B). unfold r2. rewrite (Qeq_eqR _ _ A), (Qeq_eqR _ _ B). reflexivity. Qed.
Lemma Q2R_1 : Q2R 1 = 1.
Proof. unfold Q2R. cbn. field. Qed.
Lemma sheet_is u v : sfun sheet (Q2R u) (Q2R v) = Ok (q2r (q_sheet (u, v))).
Proof.
  cbn [sheet sfun]. unfold q2r, q_sheet. cbn [fst snd]. repeat rewrite ?Q2R_mult, ?Q2R_minus, ?q_lit. f_equal. f_equal; field.
Qed.
Lemma sheet_det p : 0 <= Q2R (fst p) <= 4 -> determined sheet q_sheet p.
Proof.
  intros Hp u v H. destruct p as (a, b). cbn [fst snd] in *. rewrite <- sheet_is in H. cbn [sheet sfun] in H. injection H as H1 H2.
  assert (u = Q2R a) by lra. subst u. split; [reflexivity|].
  apply Rmult_eq_reg_r in H1; [exact H1|]. set (x := Q2R a) in *. nra.
Qed.

Lemma Q2R_4 : Q2R 4 = 4.
Proof. unfold Q2R. cbn. field. Qed.
Lemma sheet_rects : rects sheet = map q2r2 [((0, 4), (0, 4))%Q].
Proof. cbn [map]. unfold q2r2. cbn [fst snd]. rewrite Q2R_0, Q2R_4. reflexivity. Qed.
Lemma sheet_hole : exists N pts tris info,
  (forall fuel, (N <= fuel)%nat -> surface_mesh fuel sheet (Some (201/200)) None = Ok ((pts, tris), info)) /\
  forall T, Forall2 (tri_on (sfun sheet) Ok pts) T tris -> ~ covers 0 4 0 4 T /\ ~ conforming T.
Proof.
  apply (with_run sheet_run sheet_check _ sheet_checked).
  intros [((ps, tris), info)|] E H; [|discriminate]. cbn [sheet_check] in H. unfold sheet_run in E.
  apply andb_true_iff in H. destruct H as (H1 & H2). apply andb_true_iff in H1. destruct H1 as (H1 & H3).
  exists 100%nat, (map (fun p => q2r (q_sheet p)) ps), tris, info. split.
  - intros fuel Hf. unfold surface_mesh, surface_mesh_size.
    assert (M : 201/200 = Q2R (201#200)) by (rewrite q_lit; reflexivity). rewrite M.
    apply (q_surface_run sheet q_sheet (201#200) 2 [((0, 4), (0, 4))%Q] 100 ((ps, tris), info)); [| | |reflexivity|exact E|exact Hf].
    + rewrite q_lit. lra.
    + apply sheet_is.
    + apply sheet_rects.
  - intros T HT. rewrite (tri_det sheet q_sheet ps) with (T := T) (tris := tris).
    + split; [apply (not_covers ps tris hole); [exact H1| |]; unfold hole; cbn [fst snd]; rewrite q_lit; lra|].
      intros HC. destruct (nth_error tris 34) as [k|] eqn:Ek; [|discriminate]. destruct (nth_error tris 3) as [k'|] eqn:Ek'; [|discriminate].
      apply andb_true_iff in H3. destruct H3 as (H3 & H6). apply andb_true_iff in H3. destruct H3 as (H4 & H5).
      apply q_eq_R in H4, H5, H6. apply nth_error_In in Ek, Ek'.
      apply (HC (tri_R (q_tri ps k)) (tri_R (q_tri ps k')) (r2 (1, 0)%Q) (r2 (1, 1#2)%Q) (r2 (1, 1#4)%Q) (1/2));
        [apply (in_map (fun k => tri_R (q_tri ps k))), Ek|apply (in_map (fun k => tri_R (q_tri ps k))), Ek'| | |lra|].
      * unfold q_tri, tri_R, edge. left. split; symmetry; assumption.
      * unfold q_tri, tri_R, corner. right. left. symmetry. exact H6.
      * unfold r2. cbn [fst snd]. rewrite !q_lit. apply injective_projections; cbn [fst snd]; field.
    + apply Forall_forall. intros p Hp. apply sheet_det. rewrite forallb_forall in H2. specialize (H2 p Hp).
      apply andb_true_iff in H2. destruct H2 as (A & B). apply Qle_bool_R in A. apply Qle_bool_iff, Qle_Rle in B.
      rewrite Q2R_4 in B. lra.
    + exact HT.
Qed.

(** ** The flat square [0,2] x [0,2] with one breakpoint in each direction *)
Definition cross_plate : surface := mksurf (fun u v => Ok (V3 u v 0)) 2 2 [1] [1] None.
Definition q_flat (p : qpair) : qvec := (fst p, snd p, 0)%Q.
Definition cross_rects : list ((Q * Q) * (Q * Q)) :=
  [((0, 1), (0, 1)); ((0, 1), (1, 2)); ((1, 2), (0, 1)); ((1, 2), (1, 2))]%Q.
Definition cross_run := q_mesh 40 q_flat (1#2) 2 2 2 cross_rects.
(** a point strictly inside a triangle, whichever way its corners are listed *)
Definition strictly_in (t : ptri) (p : ppoint) : Prop :=
  let '(a, b, c) := t in tri_interior (a, b, c) p \/ tri_interior (a, c, b) p.
Definition q_flip (t : qtri) : qtri := let '(a, b, c) := t in (a, c, b).
Definition q_strictly (t : qtri) (p : qpair) : bool := q_strict t p || q_strict (q_flip t) p.
Lemma q_strictly_R t p : q_strictly t p = true <-> strictly_in (tri_R t) (r2 p).
Proof.
  unfold q_strictly. rewrite orb_true_iff, !q_strict_R. destruct t as ((a, b), c). unfold q_flip, strictly_in, tri_R. tauto.
Qed.
Definition clash : qpair := (51#100, 7#10)%Q.
Definition cross_check (r : qresult) : bool :=
  match r with
  | Ok (ps, tris, _) =>
      match nth_error tris 6, nth_error tris 15, nth_error tris 20 with
      | Some k6, Some k15, Some k20 =>
          negb (q_pos (q_tri ps k6)) &&
          q_strictly (q_tri ps k15) clash && q_strictly (q_tri ps k20) clash &&
          match nth_error ps (fst (fst k6)), nth_error ps (snd k6) with
          | Some a, Some b => Qltb (25#16) (q_dist2 (q_flat a) (q_flat b))
          | _, _ => false
          end
      | _, _, _ => false
      end
  | Err _ => false
  end.
Lemma cross_checked : cross_check cross_run = true.
Proof. vm_compute. reflexivity. Qed.
Lemma flat_det s : (forall u v, sfun s u v = Ok (V3 u v 0)) -> forall p, determined s q_flat p.
Proof. intros Hs (a, b) u v H. rewrite Hs in H. unfold q_flat, q2r in H. cbn [fst snd] in *. injection H as -> -> _. split; reflexivity. Qed.
Lemma flat_is s : (forall u v, sfun s u v = Ok (V3 u v 0)) -> forall u v, sfun s (Q2R u) (Q2R v) = Ok (q2r (q_flat (u, v))).
Proof. intros Hs u v. rewrite Hs. unfold q_flat, q2r. cbn [fst snd]. rewrite Q2R_0. reflexivity. Qed.
Lemma Q2R_2 : Q2R 2 = 2.
Proof. unfold Q2R. cbn. field. Qed.
Lemma cross_rects_are : rects cross_plate = map q2r2 cross_rects.
Proof. unfold cross_rects. cbn [map]. unfold q2r2. cbn [fst snd]. rewrite Q2R_0, Q2R_1, Q2R_2. reflexivity. Qed.
Lemma cross_wrong : exists N pts tris info,
  (forall fuel, (N <= fuel)%nat -> surface_mesh fuel cross_plate (Some (1/2)) None = Ok ((pts, tris), info)) /\
  (exists k a b, In k tris /\ nth_error pts (fst (fst k)) = Some a /\ nth_error pts (snd k) = Some b /\ 5/4 < dist3 a b) /\
  forall T, Forall2 (tri_on (sfun cross_plate) Ok pts) T tris ->
    ~ oriented T /\ exists x y t t' p, x <> y /\ nth_error T x = Some t /\ nth_error T y = Some t' /\ strictly_in t p /\ strictly_in t' p.
Proof.
  apply (with_run cross_run cross_check _ cross_checked).
  intros [((ps, tris), info)|] E H; [|discriminate]. cbn [cross_check] in H. unfold cross_run in E.
  destruct (nth_error tris 6) as [k6|] eqn:E6; [|discriminate]. destruct (nth_error tris 15) as [k15|] eqn:E15; [|discriminate].
  destruct (nth_error tris 20) as [k20|] eqn:E20; [|discriminate]. apply andb_true_iff in H. destruct H as (H & H4).
  apply andb_true_iff in H. destruct H as (H & H3). apply andb_true_iff in H. destruct H as (H1 & H2).
  destruct (nth_error ps (fst (fst k6))) as [a|] eqn:Ea; [|discriminate]. destruct (nth_error ps (snd k6)) as [b|] eqn:Eb; [|discriminate].
  exists 40%nat, (map (fun p => q2r (q_flat p)) ps), tris, info. split; [|split].
  - intros fuel Hf. unfold surface_mesh, surface_mesh_size.
    assert (M : 1/2 = Q2R (1#2)) by (rewrite q_lit; reflexivity). rewrite M.
    apply (q_surface_run cross_plate q_flat (1#2) 2 cross_rects 40 ((ps, tris), info)); [| | |reflexivity|exact E|exact Hf].
    + rewrite q_lit. lra.
    + apply flat_is. reflexivity.
    + apply cross_rects_are.
  - exists k6, (q2r (q_flat a)), (q2r (q_flat b)). split; [eapply nth_error_In; exact E6|].
    rewrite !nth_error_map, Ea, Eb. split; [reflexivity|]. split; [reflexivity|].
    rewrite Qltb_R in H4. apply Rltb_true in H4. rewrite q_dist2_R, q_lit in H4.
    assert (0 <= dist3 (q2r (q_flat a)) (q2r (q_flat b))) by apply norm_nonneg. nra.
  - intros T HT. rewrite (tri_det cross_plate q_flat ps) with (T := T) (tris := tris).
    + split.
      * intros HO. unfold oriented in HO. rewrite Forall_map, Forall_forall in HO. specialize (HO k6 (nth_error_In _ _ E6)).
        apply q_pos_R in HO. rewrite HO in H1. discriminate.
      * exists 15%nat, 20%nat, (tri_R (q_tri ps k15)), (tri_R (q_tri ps k20)), (r2 clash). split; [lia|].
        rewrite !nth_error_map, E15, E20. split; [reflexivity|]. split; [reflexivity|]. split; apply q_strictly_R; assumption.
    + apply Forall_forall. intros p _. apply flat_det. reflexivity.
    + exact HT.
Qed.

(** ** The flat rectangle [0,8] x [0,4] is evaluated twice at the same place *)
Definition plate : surface := mksurf (fun u v => Ok (V3 u v 0)) 8 4 [] [] None.
Definition plate_run := q_mesh 60 q_flat (19#10) 2 1 1 [((0, 8), (0, 4))%Q].
Definition plate_check (r : qresult) : bool :=
  match r with
  | Ok (ps, tris, _) =>
      match nth_error ps 7, nth_error ps 9 with
      | Some a, Some b => Qeq_bool (fst a) (fst b) && Qeq_bool (snd a) (snd b)
      | _, _ => false
      end
  | Err _ => false
  end.
Lemma plate_checked : plate_check plate_run = true.
Proof. vm_compute. reflexivity. Qed.
Lemma Q2R_8 : Q2R 8 = 8.
Proof. unfold Q2R. cbn. field. Qed.
Lemma plate_twice : exists N pts tris info,
  (forall fuel, (N <= fuel)%nat -> surface_mesh fuel plate (Some (19/10)) None = Ok ((pts, tris), info)) /\
  exists i j p, i <> j /\ nth_error pts i = Some p /\ nth_error pts j = Some p.
Proof.
  apply (with_run plate_run plate_check _ plate_checked).
  intros [((ps, tris), info)|] E H; [|discriminate]. cbn [plate_check] in H. unfold plate_run in E.
  destruct (nth_error ps 7) as [a|] eqn:Ea; [|discriminate]. destruct (nth_error ps 9) as [b|] eqn:Eb; [|discriminate].
  apply andb_true_iff in H. destruct H as (H1 & H2). apply Qeq_bool_iff, Qeq_eqR in H1, H2.
  exists 60%nat, (map (fun p => q2r (q_flat p)) ps), tris, info. split.
  - intros fuel Hf. unfold surface_mesh, surface_mesh_size.
    assert (M : 19/10 = Q2R (19#10)) by (rewrite q_lit; reflexivity). rewrite M.
    apply (q_surface_run plate q_flat (19#10) 2 [((0, 8), (0, 4))%Q] 60 ((ps, tris), info)); [| | |reflexivity|exact E|exact Hf].
    + rewrite q_lit. lra.
    + apply flat_is. reflexivity.
    + cbn [map]. unfold q2r2. cbn [fst snd]. rewrite Q2R_0, Q2R_4, Q2R_8. reflexivity.
  - exists 7%nat, 9%nat, (q2r (q_flat a)). split; [lia|]. rewrite !nth_error_map, Ea, Eb. split; [reflexivity|].
    cbn [option_map]. unfold q_flat, q2r. rewrite H1, H2. reflexivity.
Qed.

(** ** Mesh size zero *)
Lemma refine_forever (dec : quad -> result (bool * bool)) : (forall q, wfq q -> dec q = Ok (true, true)) ->
  forall fuel todo quads, Forall wfq todo -> todo <> [] -> refine fuel dec todo quads = Err OutOfFuel.
Proof.
  intros Hd. induction fuel as [|fuel IH]; intros todo quads Hw Hne; (destruct todo as [|q rest]; [congruence|]); cbn [refine]; [reflexivity|].
  inversion Hw as [|? ? W1 W2]; subst. rewrite (Hd q W1). cbn [bind]. destruct (split q true true) as [cs|] eqn:Es; [|discriminate].
  apply IH; [|cbn [split] in Es; injection Es as <-; discriminate]. apply Forall_app. split; [eapply split_wf; eassumption|exact W2].
Qed.
Definition unit_plate : surface := mksurf (fun u v => Ok (V3 u v 0)) 1 1 [] [] None.
Lemma zero_size_runs_on fuel : surface_mesh fuel unit_plate (Some 0) None = Err OutOfFuel.
Proof.
  unfold surface_mesh, surface_mesh_size, mesh_surface. fold (evals unit_plate).
  assert (Hone : sbps1 unit_plate = [] \/ sbps2 unit_plate = []) by (left; reflexivity).
  pose proof (mesher_spec fuel (decide_split (fun _ => Ok 0)) 2 (length (sbps1 unit_plate) + 1) (length (sbps2 unit_plate) + 1) (evals unit_plate)
     (fun depth pts ms => maps_right unit_plate depth pts ms /\ edges_shared unit_plate depth ms)
     (evals_compatible unit_plate) (evals_len unit_plate) (one_direction unit_plate Hone)) as G.
  assert (HV : forall depth pts ms, maps_right unit_plate depth pts ms /\ edges_shared unit_plate depth ms ->
     Forall (vals (fun k => (k < length pts)%nat) (2 ^ depth)) ms).
  { intros d p m (HR & _). apply maps_right_ok in HR. eapply Forall2_right; [|exact HR]. intros e x. apply ok_vals. }
  specialize (G HV). clear HV.
  set (r := ((0, 1), (0, 1)) : rect).
  assert (E : section_quads fuel (decide_split (fun _ => Ok 0)) 2 (index_to_point (rsection unit_plate r)) = Err OutOfFuel).
  { unfold section_quads. assert (H : forall q, wfq q -> decision (index_to_point (rsection unit_plate r)) (decide_split (fun _ => Ok 0)) q = Ok (true, true)).
    { intros q W. rewrite (decision_at unit_plate (fun u v => V3 u v 0) r (fun _ => Ok 0) q); try exact W; [|intros u v _ _; reflexivity|unfold r; cbn; lra|unfold r; cbn; lra].
      cbn [bind]. destruct W as (W1 & _ & W3 & _). apply lt_INR in W1, W3. pose proof (MesherTile.pw_pos (qd q)) as Hp.
      assert (A : cu r (qd q) (qi0 q) < cu r (qd q) (qi1 q)).
      { unfold cu, r. cbn [fst snd]. apply Rplus_lt_compat_l, Rmult_lt_compat_l; [|exact W1]. apply Rdiv_lt_0_compat; lra. }
      assert (B : cv r (qd q) (qj0 q) < cv r (qd q) (qj1 q)).
      { unfold cv, r. cbn [fst snd]. apply Rplus_lt_compat_l, Rmult_lt_compat_l; [|exact W3]. apply Rdiv_lt_0_compat; lra. }
      f_equal. f_equal; apply too_long_true; left; (eapply Rlt_le_trans; [|apply Rmax_l]);
        (apply dist3_pos; intros Z; injection Z; intros; lra). }
    change (start_quads 2) with (mkquad 2 0 1 0 1 :: tl (start_quads 2)). cbn [refine_all].
    rewrite (refine_forever _ H); [reflexivity| |discriminate]. constructor; [|constructor]. unfold wfq. cbn. lia. }
  assert (E' : mapM (section_quads fuel (decide_split (fun _ => Ok 0)) 2) (evals unit_plate) = Err OutOfFuel).
  { rewrite evals_rects. change (rects unit_plate) with [r]. cbn [map mapM]. rewrite E. reflexivity. }
  rewrite E' in G. exact G.
Qed.
