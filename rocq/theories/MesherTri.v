(** The triangles into which the mesher cuts a quad tile it. *)
From Coq Require Import Reals Lra Psatz Permutation.
From Verif Require Import Base BaseFacts MesherModel MesherFacts MesherRun MesherSpec MesherTile.
Local Open Scope R_scope.

Definition rect_open (p0 p1 p2 p3 p : ppoint) : Prop :=
  0 < turn p0 p1 p /\ 0 < turn p1 p2 p /\ 0 < turn p2 p3 p /\ 0 < turn p3 p0 p.
Definition rect_closed (p0 p1 p2 p3 p : ppoint) : Prop :=
  0 <= turn p0 p1 p /\ 0 <= turn p1 p2 p /\ 0 <= turn p2 p3 p /\ 0 <= turn p3 p0 p.
(** p0 p1 p2 p3 is a parallelogram of positive orientation *)
Definition para (p0 p1 p2 p3 : ppoint) : Prop :=
  fst p2 = fst p1 + fst p3 - fst p0 /\ snd p2 = snd p1 + snd p3 - snd p0 /\ 0 < turn p0 p1 p3.
Lemma para_rotate p0 p1 p2 p3 : para p0 p1 p2 p3 -> para p1 p2 p3 p0.
Proof.
  unfold para, turn. intros (A & B & C). rewrite A, B. split; [lra|]. split; [lra|].
  replace ((snd p1 + snd p3 - snd p0 - snd p1) * (fst p0 - fst p1) - (fst p1 + fst p3 - fst p0 - fst p1) * (snd p0 - snd p1))
    with ((snd p1 - snd p0) * (fst p3 - fst p0) - (fst p1 - fst p0) * (snd p3 - snd p0)) by ring. exact C.
Qed.

(** what "a list of triangles tiles a parallelogram" means *)
Record tiles (p0 p1 p2 p3 : ppoint) (T : list ptri) : Prop := {
  ti_or : oriented T;
  ti_no : no_overlap T;
  ti_op : forall t p, In t T -> tri_interior t p -> rect_open p0 p1 p2 p3 p;
  ti_cl : forall t p, In t T -> tri_closed t p -> rect_closed p0 p1 p2 p3 p;
  ti_co : forall p, rect_closed p0 p1 p2 p3 p -> exists t, In t T /\ tri_closed t p }.
Lemma tiles_rotate p0 p1 p2 p3 T : tiles p1 p2 p3 p0 T -> tiles p0 p1 p2 p3 T.
Proof.
  intros [A B C D E]. constructor; [exact A|exact B| | |].
  - intros t p Ht Hp. destruct (C t p Ht Hp) as (a & b & c & d). repeat split; assumption.
  - intros t p Ht Hp. destruct (D t p Ht Hp) as (a & b & c & d). repeat split; assumption.
  - intros p (a & b & c & d). apply E. repeat split; assumption.
Qed.

Definition lin (p0 p1 p3 : ppoint) (x y : R) : ppoint :=
  (fst p0 + x * (fst p3 - fst p0) + y * (fst p1 - fst p0), snd p0 + x * (snd p3 - snd p0) + y * (snd p1 - snd p0)).
Lemma lin_surj p0 p1 p3 p : turn p0 p1 p3 <> 0 -> exists x y, p = lin p0 p1 p3 x y.
Proof.
  intros HD. exists (turn p0 p1 p / turn p0 p1 p3), (turn p3 p0 p / turn p0 p1 p3).
  destruct p as (px, py). unfold lin. apply injective_projections; cbn [fst snd]; unfold turn in *; cbn [fst snd] in *; field; exact HD.
Qed.
Lemma turn_lin p0 p1 p3 xa ya xb yb xc yc :
  turn (lin p0 p1 p3 xa ya) (lin p0 p1 p3 xb yb) (lin p0 p1 p3 xc yc) =
  turn p0 p1 p3 * turn (xa, ya) (xb, yb) (xc, yc).
Proof. unfold turn, lin; cbn [fst snd]; ring. Qed.
Lemma pos_scale D a : 0 < D -> (0 < D * a <-> 0 < a).
Proof. intros HD. split; intros H; [apply Rmult_lt_reg_l with D; lra|apply Rmult_lt_0_compat; assumption]. Qed.
Lemma nn_scale D a : 0 < D -> (0 <= D * a <-> 0 <= a).
Proof. intros HD. split; intros H; [apply Rmult_le_reg_l with D; lra|apply Rmult_le_pos; lra]. Qed.

Lemma lin_corners p0 p1 p2 p3 : para p0 p1 p2 p3 ->
  p0 = lin p0 p1 p3 0 0 /\ p1 = lin p0 p1 p3 0 1 /\ p2 = lin p0 p1 p3 1 1 /\ p3 = lin p0 p1 p3 1 0.
Proof.
  intros (A & B & _). unfold lin.
  repeat split; apply injective_projections; cbn [fst snd]; rewrite ?A, ?B; ring.
Qed.

(** an affine chart of the plane *)
Record chart (L : R -> R -> ppoint) (D : R) : Prop := {
  ch_pos : 0 < D;
  ch_turn : forall xa ya xb yb xc yc, turn (L xa ya) (L xb yb) (L xc yc) = D * turn (xa, ya) (xb, yb) (xc, yc);
  ch_surj : forall p, exists x y, p = L x y }.
Lemma para_chart p0 p1 p2 p3 : para p0 p1 p2 p3 ->
  exists L D, chart L D /\ p0 = L 0 0 /\ p1 = L 0 1 /\ p2 = L 1 1 /\ p3 = L 1 0 /\
    forall t, L 0 t = (fst p0 + t * (fst p1 - fst p0), snd p0 + t * (snd p1 - snd p0)).
Proof.
  intros Hp. pose proof (lin_corners _ _ _ _ Hp) as (E0 & E1 & E2 & E3). destruct Hp as (_ & _ & HD).
  exists (lin p0 p1 p3), (turn p0 p1 p3). split; [|repeat split; try assumption].
  - constructor; [exact HD|intros; apply turn_lin|]. intros p. apply lin_surj. lra.
  - intros t. unfold lin. f_equal; ring.
Qed.

Ltac unit_turn Hc := rewrite ?(ch_turn _ _ Hc), ?(pos_scale _ _ (ch_pos _ _ Hc)), ?(nn_scale _ _ (ch_pos _ _ Hc));
  unfold turn; cbn [fst snd].

Lemma tile_two L D : chart L D -> tiles (L 0 0) (L 0 1) (L 1 1) (L 1 0) [(L 0 0, L 0 1, L 1 1); (L 0 0, L 1 1, L 1 0)].
Proof.
  intros Hc. constructor.
  - constructor; [unit_turn Hc; lra|]. constructor; [unit_turn Hc; lra|constructor].
  - constructor; [|constructor; constructor]. constructor; [|constructor].
    intros p. destruct (ch_surj _ _ Hc p) as (x & y & ->). unfold tri_interior. unit_turn Hc. lra.
  - intros t p Ht. destruct (ch_surj _ _ Hc p) as (x & y & ->). unfold rect_open.
    destruct Ht as [<-|[<-|[]]]; unfold tri_interior; unit_turn Hc; lra.
  - intros t p Ht. destruct (ch_surj _ _ Hc p) as (x & y & ->). unfold rect_closed.
    destruct Ht as [<-|[<-|[]]]; unfold tri_closed; unit_turn Hc; lra.
  - intros p. destruct (ch_surj _ _ Hc p) as (x & y & ->). unfold rect_closed. unit_turn Hc. intros H.
    destruct (Rle_dec x y) as [Hxy|Hxy].
    + eexists; split; [left; reflexivity|]. unfold tri_closed. unit_turn Hc. lra.
    + eexists; split; [right; left; reflexivity|]. unfold tri_closed. unit_turn Hc. lra.
Qed.

Lemma tile_three L D t : chart L D -> 0 < t < 1 ->
  tiles (L 0 0) (L 0 1) (L 1 1) (L 1 0) [(L 0 0, L 0 t, L 1 0); (L 0 t, L 1 1, L 1 0); (L 0 t, L 0 1, L 1 1)].
Proof.
  intros Hc Ht. constructor.
  - constructor; [unit_turn Hc; lra|]. constructor; [unit_turn Hc; lra|]. constructor; [unit_turn Hc; lra|constructor].
  -
    constructor; [|constructor; [|constructor; constructor]]; (constructor; [|try constructor; try constructor]);
    intros p; destruct (ch_surj _ _ Hc p) as (x & y & ->); unfold tri_interior; unit_turn Hc; intros; nra.
  - intros s p Hs. destruct (ch_surj _ _ Hc p) as (x & y & ->). unfold rect_open.
    destruct Hs as [<-|[<-|[<-|[]]]]; unfold tri_interior; unit_turn Hc; intros; nra.
  - intros s p Hs. destruct (ch_surj _ _ Hc p) as (x & y & ->). unfold rect_closed.
    destruct Hs as [<-|[<-|[<-|[]]]]; unfold tri_closed; unit_turn Hc; intros; nra.
  - intros p. destruct (ch_surj _ _ Hc p) as (x & y & ->). unfold rect_closed. unit_turn Hc. intros H.
    destruct (Rle_dec (t * x + y) t) as [H1|H1]; [|destruct (Rle_dec y (t + (1 - t) * x)) as [H2|H2]].
    + eexists; split; [left; reflexivity|]. unfold tri_closed. unit_turn Hc. nra.
    + eexists; split; [right; left; reflexivity|]. unfold tri_closed. unit_turn Hc. nra.
    + eexists; split; [right; right; left; reflexivity|]. unfold tri_closed. unit_turn Hc. nra.
Qed.

(** grid positions as points of the plane *)
Definition gp (p : pos) : ppoint := (INR (fst p), INR (snd p)).
Definition gt (t : tri_pos) : ptri := (gp (fst (fst t)), gp (snd (fst t)), gp (snd t)).
Definition aligned (p q : pos) : Prop := fst p = fst q \/ snd p = snd q.

Lemma mid_between a b : (1 < absdiff a b)%nat -> exists t, 0 < t < 1 /\ INR ((a + b) / 2) = INR a + t * (INR b - INR a).
Proof.
  intros H. set (c := ((a + b) / 2)%nat).
  assert (Hc : (2 * c <= a + b /\ a + b < 2 * c + 2)%nat).
  { unfold c. pose proof (Nat.div_mod (a + b) 2 ltac:(lia)). pose proof (Nat.mod_upper_bound (a + b) 2 ltac:(lia)). lia. }
  unfold absdiff in H. destruct (Nat.lt_ge_cases a b) as [Hab|Hab].
  - assert (A1 : (a < c)%nat) by lia. assert (A2 : (c < b)%nat) by lia. apply lt_INR in A1, A2.
    exists ((INR c - INR a) / (INR b - INR a)). split; [|field; lra].
    split; [apply Rdiv_lt_0_compat; lra|]. apply Rmult_lt_reg_r with (INR b - INR a); [lra|].
    unfold Rdiv. rewrite Rmult_assoc, Rinv_l by lra. lra.
  - assert (A1 : (b < c)%nat) by lia. assert (A2 : (c < a)%nat) by lia. apply lt_INR in A1, A2.
    exists ((INR a - INR c) / (INR a - INR b)). split; [|field; lra].
    split; [apply Rdiv_lt_0_compat; lra|]. apply Rmult_lt_reg_r with (INR a - INR b); [lra|].
    unfold Rdiv. rewrite Rmult_assoc, Rinv_l by lra. lra.
Qed.
Lemma half_double a : ((a + a) / 2)%nat = a.
Proof. replace (a + a)%nat with (a * 2)%nat by lia. apply Nat.div_mul. lia. Qed.
Lemma mid_gp p0 p1 : aligned p0 p1 ->
  (1 <? absdiff (fst p0) (fst p1))%nat || (1 <? absdiff (snd p0) (snd p1))%nat = true ->
  exists t, 0 < t < 1 /\ gp ((fst p0 + fst p1) / 2, (snd p0 + snd p1) / 2)%nat =
    (fst (gp p0) + t * (fst (gp p1) - fst (gp p0)), snd (gp p0) + t * (snd (gp p1) - snd (gp p0))).
Proof.
  intros Hax Hl. apply orb_true_iff in Hl. rewrite !Nat.ltb_lt in Hl. unfold gp. cbn [fst snd].
  assert (Z : forall a, absdiff a a = 0%nat) by (intros; unfold absdiff; lia).
  destruct Hax as [E|E]; rewrite E in *; rewrite Z, half_double in *.
  - destruct Hl as [Hl|Hl]; [lia|]. destruct (mid_between _ _ Hl) as (t & Ht & ->). exists t. split; [exact Ht|]. f_equal; ring.
  - destruct Hl as [Hl|Hl]; [|lia]. destruct (mid_between _ _ Hl) as (t & Ht & ->). exists t. split; [exact Ht|]. f_equal; ring.
Qed.

Lemma split_edges_tiles depth m n : forall p0 p1 p2 p3 ts,
  para (gp p0) (gp p1) (gp p2) (gp p3) -> aligned p0 p1 -> aligned p1 p2 -> aligned p2 p3 -> aligned p3 p0 ->
  split_edges n depth m p0 p1 p2 p3 = Ok ts -> tiles (gp p0) (gp p1) (gp p2) (gp p3) (map gt ts).
Proof.
  induction n as [|n IH]; intros p0 p1 p2 p3 ts Hp A0 A1 A2 A3 H; cbn [split_edges] in H.
  - injection H as <-. cbn [map]. unfold gt. cbn [fst snd].
    destruct (para_chart _ _ _ _ Hp) as (L & D & Hc & -> & -> & -> & -> & _). eapply tile_two; exact Hc.
  - set (e := ((fst p0 + fst p1) / 2, (snd p0 + snd p1) / 2)%nat) in H.
    destruct (_ || _) eqn:El in H.
    + apply bind_ok in H. destruct H as (b & _ & H). destruct b.
      * injection H as <-. destruct (mid_gp p0 p1 A0 El) as (t & Ht & Em). fold e in Em.
        cbn [map]. unfold gt. cbn [fst snd]. rewrite Em.
        destruct (para_chart _ _ _ _ Hp) as (L & D & Hc & E0 & E1 & E2 & E3 & EL). rewrite <- EL, E0, E1, E2, E3.
        eapply tile_three; eassumption.
      * apply tiles_rotate, (IH p1 p2 p3 p0); auto. apply para_rotate, Hp.
    + cbn [bind] in H. apply tiles_rotate, (IH p1 p2 p3 p0); auto. apply para_rotate, Hp.
Qed.

Definition quad_open (q : quad) (p : ppoint) : Prop := INR (qi0 q) < fst p < INR (qi1 q) /\ INR (qj0 q) < snd p < INR (qj1 q).
Definition quad_closed (q : quad) (p : ppoint) : Prop := INR (qi0 q) <= fst p <= INR (qi1 q) /\ INR (qj0 q) <= snd p <= INR (qj1 q).

Lemma quad_triangles_tiles depth m q ts : wfq q -> quad_triangles depth m q = Ok ts ->
  oriented (map gt ts) /\ no_overlap (map gt ts) /\
  (forall t p, In t (map gt ts) -> tri_interior t p -> quad_open q p) /\
  (forall t p, In t (map gt ts) -> tri_closed t p -> quad_closed q p) /\
  (forall p, quad_closed q p -> exists t, In t (map gt ts) /\ tri_closed t p).
Proof.
  intros (W1 & _ & W3 & _) H. apply lt_INR in W1, W3. unfold quad_triangles in H.
  apply split_edges_tiles in H; try (left; reflexivity); try (right; reflexivity).
  2: { unfold para, gp, turn. cbn [fst snd]. split; [ring|]. split; [ring|]. nra. }
  destruct H as [T1 T2 T3 T4 T5]. unfold rect_open, rect_closed, gp, turn in *. cbn [fst snd] in *.
  set (a := INR (qi0 q)) in *. set (b := INR (qi1 q)) in *. set (c := INR (qj0 q)) in *. set (d := INR (qj1 q)) in *.
  split; [exact T1|]. split; [exact T2|]. split; [|split].
  - intros t p Ht Hp. destruct (T3 t p Ht Hp) as (X1 & X2 & X3 & X4). unfold quad_open. fold a b c d. repeat split; nra.
  - intros t p Ht Hp. destruct (T4 t p Ht Hp) as (X1 & X2 & X3 & X4). unfold quad_closed. fold a b c d. repeat split; nra.
  - intros p ((X1 & X2) & (X3 & X4)). apply T5. fold a b c d in X1, X2, X3, X4. repeat split; nra.
Qed.

(** the parameters of a grid position of a section *)
Definition to_param (ua ub va vb : R) (depth : nat) (p : ppoint) : ppoint :=
  (ua + (ub - ua) / pw depth * fst p, va + (vb - va) / pw depth * snd p).
Definition tri_param ua ub va vb depth (t : tri_pos) : ptri :=
  (to_param ua ub va vb depth (gp (fst (fst t))), to_param ua ub va vb depth (gp (snd (fst t))),
   to_param ua ub va vb depth (gp (snd t))).

Section Params.
  Variables (ua ub va vb : R) (depth : nat).
  Hypothesis Hu : ua < ub.
  Hypothesis Hv : va < vb.
  Let P := to_param ua ub va vb depth.
  Lemma param_turn a b c : turn (P a) (P b) (P c) = (ub - ua) / pw depth * ((vb - va) / pw depth) * turn a b c.
  Proof. unfold P, to_param, turn. cbn [fst snd]. ring. Qed.
  Lemma param_scale_pos : 0 < (ub - ua) / pw depth * ((vb - va) / pw depth).
  Proof. pose proof (pw_pos depth). apply Rmult_lt_0_compat; apply Rdiv_lt_0_compat; lra. Qed.
  Lemma param_surj p : exists g, p = P g.
  Proof.
    pose proof (pw_pos depth). exists ((fst p - ua) / (ub - ua) * pw depth, (snd p - va) / (vb - va) * pw depth).
    destruct p as (x, y). unfold P, to_param. cbn [fst snd]. apply injective_projections; cbn [fst snd]; field; lra.
  Qed.
  Lemma param_interior t g : tri_interior (tri_param ua ub va vb depth t) (P g) <-> tri_interior (gt t) g.
  Proof.
    unfold tri_interior, tri_param, gt. fold P. rewrite !param_turn, !(pos_scale _ _ param_scale_pos). tauto.
  Qed.
  Lemma param_closed t g : tri_closed (tri_param ua ub va vb depth t) (P g) <-> tri_closed (gt t) g.
  Proof.
    unfold tri_closed, tri_param, gt. fold P. rewrite !param_turn, !(nn_scale _ _ param_scale_pos). tauto.
  Qed.
  Lemma param_range g : 0 <= fst g <= pw depth -> 0 <= snd g <= pw depth ->
    ua <= fst (P g) <= ub /\ va <= snd (P g) <= vb.
  Proof.
    intros Hx Hy. pose proof (pw_pos depth) as Hp. unfold P, to_param. cbn [fst snd].
    assert (X : forall a b x, a < b -> 0 <= x <= pw depth -> a <= a + (b - a) / pw depth * x <= b).
    { clear - Hp. intros a b x Hab Hx. split.
      - assert (0 <= (b - a) / pw depth * x); [|lra]. apply Rmult_le_pos; [|lra]. apply Rlt_le, Rdiv_lt_0_compat; lra.
      - apply Rmult_le_reg_r with (pw depth); [lra|]. 
        replace ((a + (b - a) / pw depth * x) * pw depth) with (a * pw depth + (b - a) * x) by (field; lra). nra. }
    split; apply X; assumption.
  Qed.
  Lemma param_range_open g : 0 < fst g < pw depth -> 0 < snd g < pw depth ->
    ua < fst (P g) < ub /\ va < snd (P g) < vb.
  Proof.
    intros Hx Hy. pose proof (pw_pos depth) as Hp. unfold P, to_param. cbn [fst snd].
    assert (X : forall a b x, a < b -> 0 < x < pw depth -> a < a + (b - a) / pw depth * x < b).
    { clear - Hp. intros a b x Hab Hx. split.
      - assert (0 < (b - a) / pw depth * x); [|lra]. apply Rmult_lt_0_compat; [|lra]. apply Rdiv_lt_0_compat; lra.
      - apply Rmult_lt_reg_r with (pw depth); [lra|].
        replace ((a + (b - a) / pw depth * x) * pw depth) with (a * pw depth + (b - a) * x) by (field; lra). nra. }
    split; apply X; assumption.
  Qed.

  Lemma section_tiles m qs tss :
    Forall (at_depth depth m) qs -> ForallOrdPairs disj qs -> mapM (quad_triangles depth m) qs = Ok tss ->
    let T := map (tri_param ua ub va vb depth) (concat tss) in
    oriented T /\ no_overlap T /\ inside ua ub va vb T /\
    (forall t p, In t T -> tri_interior t p -> ua < fst p < ub /\ va < snd p < vb) /\
    ((forall X Y, 0 <= X <= 1 -> 0 <= Y <= 1 -> exists q, In q qs /\ closed_cell q X Y) -> covers ua ub va vb T).
  Proof.
    intros Hat Hd HM T. pose proof (pw_pos depth) as Hp. apply mapM_ok in HM.
    assert (Hq : Forall2 (fun q ts => wfq q /\ qd q = depth /\ quad_triangles depth m q = Ok ts) qs tss).
    { clear - Hat HM. induction HM as [|q ts qs tss H _ IH]; constructor; inversion Hat as [|? ? (A & B & _) Hat']; subst; auto. }
    clear HM Hat.
    assert (Hin : forall t, In t (concat tss) -> exists q ts, In q qs /\ wfq q /\ qd q = depth /\ In t ts /\ quad_triangles depth m q = Ok ts).
    { clear - Hq. induction Hq as [|q ts qs tss (A & B & C) _ IH]; cbn [concat In]; [tauto|]. intros t Ht. apply in_app_or in Ht.
      destruct Ht as [Ht|Ht]; [exists q, ts; repeat split; auto; apply A|].
      destruct (IH t Ht) as (q' & ts' & D & E). exists q', ts'. split; [right; exact D|exact E]. }
    assert (Hgrid : forall q, wfq q -> qd q = depth -> INR (qi1 q) <= pw depth /\ INR (qj1 q) <= pw depth /\ 0 <= INR (qi0 q) /\ 0 <= INR (qj0 q)).
    { intros q (W1 & W2 & W3 & W4) E. rewrite E in W2, W4. apply le_INR in W2, W4. rewrite INR_pow in W2, W4.
      repeat split; try assumption; apply pos_INR. }
    split; [|split; [|split; [|split]]].
    - apply Forall_map, Forall_forall. intros t Ht. destruct (Hin t Ht) as (q & ts & _ & W & _ & Hts & E).
      destruct (quad_triangles_tiles depth m q ts W E) as (O & _). unfold oriented in O. rewrite Forall_map, Forall_forall in O.
      specialize (O t Hts). unfold tri_param. fold P. rewrite param_turn. apply (pos_scale _ _ param_scale_pos). exact O.
    - apply FOP_map. apply (FOP_impl (fun t t' => forall g, ~ (tri_interior (gt t) g /\ tri_interior (gt t') g))).
      { intros t t' H p (A & B). destruct (param_surj p) as (g & ->). apply (H g). split; [apply param_interior, A|apply param_interior, B]. }
      apply FOP_concat.
      + clear - Hq. induction Hq as [|q ts qs tss (A & B & C) _ IH]; constructor; [|exact IH].
        destruct (quad_triangles_tiles depth m q ts A C) as (_ & NO & _). unfold no_overlap in NO.
        clear - NO. induction ts as [|t ts IH]; [constructor|]. cbn [map] in NO. inversion NO as [|? ? N1 N2]; subst.
        constructor; [rewrite Forall_map in N1; exact N1|apply IH, N2].
      + clear - Hq Hd Hp. induction Hq as [|q ts qs tss (A & B & C) Hq IH]; constructor; inversion Hd as [|? ? D1 D2]; subst; [|apply IH; assumption].
        apply Forall_forall. intros ts' Hts' t t' Ht Ht' g (I1 & I2).
        assert (exists q', In q' qs /\ wfq q' /\ qd q' = qd q /\ quad_triangles (qd q) m q' = Ok ts') as (q' & Hq' & W' & E' & F').
        { clear - Hq Hts'. induction Hq as [|a b la lb (X & Y & Z) _ IH]; [destruct Hts'|]. destruct Hts' as [<-|Hts'].
          - exists a. repeat split; [left; reflexivity|apply X..|exact Y|exact Z].
          - destruct (IH Hts') as (q' & U & V). exists q'. split; [right; exact U|exact V]. }
        destruct (quad_triangles_tiles (qd q) m q ts A C) as (_ & _ & O1 & _).
        destruct (quad_triangles_tiles (qd q) m q' ts' W' F') as (_ & _ & O2 & _).
        apply (O1 (gt t)) in I1; [|apply in_map, Ht]. apply (O2 (gt t')) in I2; [|apply in_map, Ht'].
        rewrite Forall_forall in D1. apply (D1 q' Hq' (fst g / pw (qd q)) (snd g / pw (qd q))).
        unfold open_cell. rewrite E'. unfold Rdiv. rewrite !Rmult_assoc, !Rinv_l, !Rmult_1_r by lra. split; assumption.
    - apply Forall_map, Forall_forall. intros t Ht p Hp'. destruct (param_surj p) as (g & ->). apply param_closed in Hp'.
      destruct (Hin t Ht) as (q & ts & _ & W & E & Hts & F). destruct (quad_triangles_tiles depth m q ts W F) as (_ & _ & _ & CL & _).
      destruct (CL (gt t) g (in_map gt _ _ Hts) Hp') as (X & Y). destruct (Hgrid q W E) as (G1 & G2 & G3 & G4).
      apply param_range; lra.
    - intros t0 p Ht0. apply in_map_iff in Ht0. destruct Ht0 as (t & <- & Ht). destruct (param_surj p) as (g & ->).
      rewrite param_interior. intros Hp'. destruct (Hin t Ht) as (q & ts & _ & W & E & Hts & F).
      destruct (quad_triangles_tiles depth m q ts W F) as (_ & _ & OP & _).
      destruct (OP (gt t) g (in_map gt _ _ Hts) Hp') as (X & Y). destruct (Hgrid q W E) as (G1 & G2 & G3 & G4).
      apply param_range_open; lra.
    - intros Hcov u v Hu' Hv'. destruct (Hcov ((u - ua) / (ub - ua)) ((v - va) / (vb - va))) as (q & Hqin & Hcell).
      + split; [apply Rmult_le_pos; [lra|apply Rlt_le, Rinv_0_lt_compat; lra]|].
        apply Rmult_le_reg_r with (ub - ua); [lra|]. unfold Rdiv. rewrite Rmult_assoc, Rinv_l by lra. lra.
      + split; [apply Rmult_le_pos; [lra|apply Rlt_le, Rinv_0_lt_compat; lra]|].
        apply Rmult_le_reg_r with (vb - va); [lra|]. unfold Rdiv. rewrite Rmult_assoc, Rinv_l by lra. lra.
      + assert (exists ts, wfq q /\ qd q = depth /\ quad_triangles depth m q = Ok ts /\ (forall t, In t ts -> In t (concat tss))) as (ts & W & E & F & Hsub).
        { clear - Hq Hqin. induction Hq as [|a b la lb (X & Y & Z) _ IH]; [destruct Hqin|]. destruct Hqin as [<-|Hin].
          - exists b. repeat split; [apply X..|exact Y|exact Z|]. intros t Ht. cbn [concat]. apply in_or_app. left; exact Ht.
          - destruct (IH Hin) as (ts & U & V & W & Z'). exists ts. repeat split; [apply U..|exact V|exact W|].
            intros t Ht. cbn [concat]. apply in_or_app. right. apply Z', Ht. }
        set (g := ((u - ua) / (ub - ua) * pw depth, (v - va) / (vb - va) * pw depth)).
        destruct (quad_triangles_tiles depth m q ts W F) as (_ & _ & _ & _ & CO).
        destruct (CO g) as (t0 & Ht0 & Hc).
        { unfold closed_cell in Hcell. rewrite E in Hcell. exact Hcell. }
        apply in_map_iff in Ht0. destruct Ht0 as (t & <- & Ht).
        exists (tri_param ua ub va vb depth t). split; [apply in_map, Hsub, Ht|].
        assert (Eg : (u, v) = P g).
        { unfold P, to_param, g. cbn [fst snd]. apply injective_projections; cbn [fst snd]; field; lra. }
        rewrite Eg. apply param_closed. exact Hc.
  Qed.
End Params.
