(** The side surface of a box, meshed with mesh size 1: a run on exact rationals. *)
From Coq Require Import Reals QArith Qreals Lra Psatz Sorted.
From Verif Require Import Base BaseFacts Vec GeomModel GeomFacts QuadModel KronrodFacts PathModel PathSpec PathFacts PolyFacts SurfaceModel SurfaceFacts
  MesherModel MesherFacts MesherRun MesherSpec MesherSurf MesherSim MesherRefute.

Section Run.
  Local Open Scope Q_scope.
  Definition q_box (p : qpair) : qvec :=
    let u := fst p in
    if Qle_bool u 4 then (u, snd p, 0) else if Qle_bool u (22#5) then (4, snd p, u - 4)
    else if Qle_bool u (42#5) then ((42#5) - u, snd p, 2#5) else (0, snd p, (44#5) - u).
  Definition box_rects : list ((Q * Q) * (Q * Q)) :=
    [((0, 4), (0, 4)); ((4, 22#5), (0, 4)); ((22#5, 42#5), (0, 4)); ((42#5, 44#5), (0, 4))].
  Definition box_run := q_mesh 100 q_box 1 2 4 1 box_rects.
  Definition q_eqv (a b : qvec) : bool :=
    let '(x, y, z) := a in let '(x', y', z') := b in Qeq_bool x x' && Qeq_bool y y' && Qeq_bool z z'.
  Definition is_at (ps : list qpair) (k : nat) (v : qvec) : bool :=
    match nth_error ps k with Some p => q_eqv (q_box p) v | None => false end.
  Definition box_check (r : qresult) : bool :=
    match r with
    | Ok (ps, tris, _) =>
        match nth_error tris 26, nth_error tris 40 with
        | Some k, Some k' => is_at ps (fst (fst k)) (4, 1#2, 0) && is_at ps (snd (fst k)) (4, 0, 0) && is_at ps (fst (fst k')) (4, 1#4, 0)
        | _, _ => false
        end
    | Err _ => false
    end.
  Lemma box_checked : box_check box_run = true.
  Proof. vm_compute. reflexivity. Qed.
End Run.

Local Open Scope R_scope.
Definition side_at (u v : R) : vec3 :=
  if Rle_dec u 4 then V3 u v 0 else if Rle_dec u (22/5) then V3 4 v (u - 4)
  else if Rle_dec u (42/5) then V3 (42/5 - u) v (2/5) else V3 0 v (44/5 - u).
Lemma q_box_R u v : q2r (q_box (u, v)) = side_at (Q2R u) (Q2R v).
Proof.
  assert (D : forall q x, Q2R q = x -> Qle_bool u q = if Rle_dec (Q2R u) x then true else false).
  { intros q x <-. destruct (Qle_bool u q) eqn:E; destruct (Rle_dec (Q2R u) (Q2R q)) as [L|L]; try reflexivity.
    - apply Qle_bool_iff, Qle_Rle in E. contradiction.
    - apply Rle_Qle, Qle_bool_iff in L. congruence. }
  unfold q_box, side_at. cbn [fst snd].
  rewrite (D 4%Q 4) by apply Q2R_4. rewrite (D (22#5)%Q (22/5)) by apply q_lit. rewrite (D (42#5)%Q (42/5)) by apply q_lit.
  destruct (Rle_dec (Q2R u) 4); [|destruct (Rle_dec (Q2R u) (22/5)); [|destruct (Rle_dec (Q2R u) (42/5))]];
    unfold q2r; rewrite ?Q2R_minus, ?Q2R_4, ?Q2R_0, ?q_lit; reflexivity.
Qed.
Lemma q_eqv_R a b : q_eqv a b = true -> q2r a = q2r b.
Proof.
  destruct a as ((ax, ay), az), b as ((bx, by_), bz). unfold q_eqv. rewrite !andb_true_iff, !Qeq_bool_iff. intros ((A & B) & C).
  unfold q2r. rewrite (Qeq_eqR _ _ A), (Qeq_eqR _ _ B), (Qeq_eqR _ _ C). reflexivity.
Qed.

(** ** The surface *)
Definition bx0 := V3 0 0 0. Definition bx1 := V3 4 0 0. Definition bx2 := V3 4 0 (2/5). Definition bx3 := V3 0 0 (2/5).
Lemma len01 : dist3 bx0 bx1 = 4.
Proof. apply norm_unique; [lra|]. unfold dot, vsub, bx0, bx1; cbn [vx vy vz]; field. Qed.
Lemma len12 : dist3 bx1 bx2 = 2/5.
Proof. apply norm_unique; [lra|]. unfold dot, vsub, bx1, bx2; cbn [vx vy vz]; field. Qed.
Lemma len23 : dist3 bx2 bx3 = 4.
Proof. apply norm_unique; [lra|]. unfold dot, vsub, bx2, bx3; cbn [vx vy vz]; field. Qed.
Lemma len30 : dist3 bx3 bx0 = 2/5.
Proof. apply norm_unique; [lra|]. unfold dot, vsub, bx3, bx0; cbn [vx vy vz]; field. Qed.

Lemma box_side : exists top bottom p, box (V3 0 0 0) (V3 4 4 (2/5)) = Ok [top; bottom; extrude (V3 0 (4 - 0) 0) p] /\
  pbps p = [4; 22/5; 42/5] /\ plen p = 44/5 /\
  forall u v, 0 <= u <= 44/5 -> 0 <= v <= 4 -> sfun (extrude (V3 0 (4 - 0) 0) p) u v = Ok (side_at u v).
Proof.
  unfold box. cbn [vx vy vz]. rewrite !Rmin_left, !Rmax_right by lra.
  assert (NE : forall a b, vx a <> vx b \/ vy a <> vy b \/ vz a <> vz b -> a <> b) by (intros a b H ->; tauto).
  destruct (follows_quad bx0 bx1 bx2 bx3) as (p & Hs & (L & B & F)); try (apply NE; cbn [bx0 bx1 bx2 bx3 vx vy vz]; lra).
  fold bx0 bx1 bx2 bx3.
  apply bind_ok in Hs. destruct Hs as (s1 & E1 & Hs). apply bind_ok in Hs. destruct Hs as (s2 & E2 & E3).
  rewrite E1. cbn [bind]. rewrite E2. cbn [bind]. rewrite E3. cbn [bind].
  destruct (MesherShapes.spanned_tiles bx3 bx2 bx0 bx1 1 2) as (top & Et & _);
    try (apply NE; cbn [bx0 bx1 bx2 bx3 vx vy vz]; lra); [left; apply NE; cbn [bx0 bx1 bx2 bx3 vx vy vz]; lra|lra|].
  destruct (MesherShapes.spanned_tiles (V3 0 4 0) (V3 4 4 0) (V3 0 4 (2/5)) (V3 4 4 (2/5)) 1 2) as (bot & Eb & _);
    try (apply NE; cbn [vx vy vz]; lra); [left; apply NE; cbn [vx vy vz]; lra|lra|].
  rewrite Et, Eb. cbn [bind]. exists top, bot, p. split; [reflexivity|].
  cbn [polylen] in L. rewrite len01, len12, len23, len30 in L.
  cbn [length Nat.sub seq map firstn polylen] in B. rewrite len01, len12, len23 in B.
  split; [rewrite B; apply (f_equal2 cons); [lra|]; apply (f_equal2 cons); [lra|]; apply (f_equal2 cons); [lra|reflexivity]|]. split; [lra|].
  assert (Hw : norm (V3 0 (4 - 0) 0) = 4) by (apply norm_unique; [lra|unfold dot; cbn [vx vy vz]; ring]).
  intros u v Hu Hv. cbn [extrude sfun]. rewrite Hw, Rdiv_py_ok by lra.
  assert (F' : forall k a b t, nth_error [bx0; bx1; bx2; bx3; bx0] k = Some a -> nth_error [bx0; bx1; bx2; bx3; bx0] (S k) = Some b ->
      0 <= t <= dist3 a b -> u = polylen (firstn (S k) [bx0; bx1; bx2; bx3; bx0]) + t -> pfun p u = Ok (vadd a (vscale (t / dist3 a b) (vsub b a)))).
  { intros k a b t H1 H2 H3 ->. apply F; assumption. }
  assert (G : exists q, pfun p u = Ok q /\ vadd q (vscale (v / 4) (V3 0 (4 - 0) 0)) = side_at u v).
  { unfold side_at. destruct (Rle_dec u 4) as [H4|H4]; [|destruct (Rle_dec u (22/5)) as [H5|H5]; [|destruct (Rle_dec u (42/5)) as [H6|H6]]].
    - eexists. split; [apply (F' 0%nat bx0 bx1 u eq_refl eq_refl); [rewrite len01; lra|cbn [firstn polylen]; ring]|]. rewrite len01. unfold bx0, bx1. apply vec_eq; simpl; field.
    - eexists. split; [apply (F' 1%nat bx1 bx2 (u - 4) eq_refl eq_refl); [rewrite len12; lra|cbn [firstn polylen]; rewrite len01; ring]|]. rewrite len12. unfold bx1, bx2. apply vec_eq; simpl; field.
    - eexists. split; [apply (F' 2%nat bx2 bx3 (u - 22/5) eq_refl eq_refl); [rewrite len23; lra|cbn [firstn polylen]; rewrite len01, len12; field]|]. rewrite len23. unfold bx2, bx3. apply vec_eq; simpl; field.
    - eexists. split; [apply (F' 3%nat bx3 bx0 (u - 42/5) eq_refl eq_refl); [rewrite len30; lra|cbn [firstn polylen]; rewrite len01, len12, len23; field]|]. rewrite len30. unfold bx3, bx0. apply vec_eq; simpl; field. }
  destruct G as (q & Eq & G). rewrite Eq. cbn [bind]. rewrite G. reflexivity.
Qed.
Lemma side_corner u v y : 0 <= u <= 44/5 -> side_at u v = V3 4 y 0 -> u = 4 /\ v = y.
Proof.
  intros Hu H. unfold side_at in H.
  destruct (Rle_dec u 4); [|destruct (Rle_dec u (22/5)); [|destruct (Rle_dec u (42/5))]]; injection H; intros; split; lra.
Qed.

Lemma box_hangs : exists parts s N pts tris info, box (V3 0 0 0) (V3 4 4 (2/5)) = Ok parts /\ In s parts /\
  (forall fuel, (N <= fuel)%nat -> surface_mesh fuel s (Some 1) None = Ok ((pts, tris), info)) /\
  forall T, Forall2 (tri_on (sfun s) Ok pts) T tris ->
    (forall t p, In t T -> corner t p -> 0 <= fst p <= slen1 s /\ 0 <= snd p <= slen2 s) -> ~ conforming T.
Proof.
  destruct box_side as (top & bot & p & Eb & B & L & F). set (s := extrude (V3 0 (4 - 0) 0) p) in *.
  assert (Hw : slen2 s = 4) by (cbn [s extrude slen2]; apply norm_unique; [lra|unfold dot; cbn [vx vy vz]; ring]).
  apply (with_run box_run box_check _ box_checked). intros [((ps, tris), info)|] E H; [|discriminate]. cbn [box_check] in H. unfold box_run in E.
  destruct (nth_error tris 26) as [k|] eqn:Ek; [|discriminate]. destruct (nth_error tris 40) as [k'|] eqn:Ek'; [|discriminate].
  apply andb_true_iff in H. destruct H as (H & H3). apply andb_true_iff in H. destruct H as (H1 & H2).
  exists [top; bot; s], s, 100%nat, (map (fun p => q2r (q_box p)) ps), tris, info.
  split; [exact Eb|]. split; [right; right; left; reflexivity|]. split.
  - intros fuel Hf. unfold surface_mesh, surface_mesh_size. replace 1 with (Q2R 1) by apply Q2R_1.
    apply (q_surface_run_on s q_box 1 2 box_rects 100 ((ps, tris), info)); [rewrite Q2R_1; lra| | | |exact Hf].
    + apply Forall_forall. intros r Hr.
      assert (Hb : 0 <= Q2R (fst (fst r)) /\ Q2R (snd (fst r)) <= 44/5 /\ Q2R (fst (snd r)) = 0 /\ Q2R (snd (snd r)) = 4 /\ Q2R (fst (fst r)) <= Q2R (snd (fst r))).
      { unfold box_rects in Hr. repeat (destruct Hr as [<-|Hr]); try contradiction; cbn [fst snd]; rewrite ?Q2R_0, ?Q2R_4, ?q_lit; lra. }
      destruct Hb as (B1 & B2 & B3 & B4 & B5). split; [exact B5|]. split; [rewrite B3, B4; lra|]. intros u v Hu Hv. rewrite q_box_R. apply F; lra.
    + unfold rects. cbn [s extrude sbps1 sbps2 slen1]. fold s. rewrite Hw, B, L. unfold box_rects. cbn [map]. unfold q2r2. cbn [fst snd].
      rewrite Q2R_0, Q2R_4, !q_lit. reflexivity.
    + cbn [s extrude sbps1 sbps2]. rewrite B. exact E.
  - intros T HT HI HC. cbn [s extrude slen1] in HI. fold s in HI. rewrite Hw, L in HI.
    assert (P : forall a i y, is_at ps i (4, y, 0)%Q = true -> corner_is (sfun s) Ok (map (fun p => q2r (q_box p)) ps) a i ->
       0 <= fst a <= 44/5 -> 0 <= snd a <= 4 -> a = (4, Q2R y)).
    { intros (u, v) i y Ha (x & Hx & Hs) Hu Hv. cbn [fst snd] in *. rewrite (F u v Hu Hv) in Hs. unfold is_at in Ha.
      rewrite nth_error_map in Hx. destruct (nth_error ps i) as [q|]; [|discriminate]. cbn [option_map] in Hx. injection Hx as <-.
      apply q_eqv_R in Ha. rewrite Ha in Hs. injection Hs as Hs. unfold q2r in Hs. rewrite Q2R_0, Q2R_4 in Hs.
      destruct (side_corner u v _ Hu Hs) as (-> & ->). reflexivity. }
    assert (G : forall n kk, nth_error tris n = Some kk -> exists t, In t T /\ tri_on (sfun s) Ok (map (fun p => q2r (q_box p)) ps) t kk).
    { clear - HT. induction HT as [|t0 k0 T0 tr0 H _ IH]; intros [|n] kk Hn; try discriminate.
      - injection Hn as <-. exists t0. split; [left; reflexivity|exact H].
      - destruct (IH n kk Hn) as (t & Ht & Hon). exists t. split; [right; exact Ht|exact Hon]. }
    destruct (G _ _ Ek) as (((a, b), c) & Ht & Hon). destruct (G _ _ Ek') as (((a', b'), c') & Ht' & Hon').
    destruct k as ((ka, kb), kc), k' as ((ka', kb'), kc'). cbn [fst snd] in *. destruct Hon as (Oa & Ob & _). destruct Hon' as (Oa' & _).
    pose proof (fun p => HI _ p Ht) as It. pose proof (fun p => HI _ p Ht') as It'.
    assert (Ia : 0 <= fst a <= 44/5 /\ 0 <= snd a <= 4) by (apply It; unfold corner; tauto).
    assert (Ib : 0 <= fst b <= 44/5 /\ 0 <= snd b <= 4) by (apply It; unfold corner; tauto).
    assert (Ia' : 0 <= fst a' <= 44/5 /\ 0 <= snd a' <= 4) by (apply It'; unfold corner; tauto).
    assert (Xa : a = (4, Q2R (1#2))) by (apply (P a ka); tauto). assert (Xb : b = (4, Q2R 0)) by (apply (P b kb); tauto).
    assert (Xa' : a' = (4, Q2R (1#4))) by (apply (P a' ka'); tauto). subst a b a'.
    apply (HC _ _ (4, Q2R (1#2)) (4, Q2R 0) (4, Q2R (1#4)) (1/2) Ht Ht'); [left; split; reflexivity|left; reflexivity|lra|].
    cbn [fst snd]. rewrite Q2R_0, !q_lit. f_equal; field.
Qed.
