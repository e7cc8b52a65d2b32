(** Surfaces of one section on which the decision to divide depends on the shape of a cell only:
    all cells of the mesh get the same shape and the triangles meet corner to corner. *)
From Coq Require Import Reals Lra Psatz Permutation Sorted.
From Verif Require Import Base BaseFacts Vec GeomModel QuadModel KronrodFacts SurfaceModel MesherModel MesherFacts MesherRun MesherSpec
  MesherTile MesherTri MesherSurf MesherEnd MesherWhole MesherTotal MesherFine.
Local Open Scope nat_scope.

(** ** A surface that is defined at fewer places: a run that ends on it ends in the same way *)
Section Mono.
  Context {P : Type}.
  Definition le_eval (e' e : nat -> nat -> nat -> result P) : Prop := forall d i j p, e' d i j = Ok p -> e d i j = Ok p.
  Variable decide : P -> P -> P -> P -> result (bool * bool).

  Lemma ps_get_le e' e st d i j out : le_eval e' e -> ps_get e' st d i j = Ok out -> ps_get e st d i j = Ok out.
  Proof.
    intros He. unfold ps_get, to_point_index. destruct (py_assert (i <=? _)); [|discriminate]. cbn [bind].
    destruct (py_assert (j <=? _)); [|discriminate]. cbn [bind].
    destruct (np_get _ d) as [m|]; [|discriminate]. cbn [bind].
    destruct (read_map d m i j) as [o|]; [|discriminate]. cbn [bind]. destruct o as [k|]; [auto|].
    destruct (e' d i j) as [p|] eqn:E; [|discriminate]. rewrite (He _ _ _ _ E). auto.
  Qed.
  Lemma subdivide_le e' e fuel : le_eval e' e -> forall st todo quads out,
    subdivide fuel e' decide st todo quads = Ok out -> subdivide fuel e decide st todo quads = Ok out.
  Proof.
    intros He. induction fuel as [|fuel IH]; intros st todo quads out; destruct todo as [|q rest]; cbn [subdivide]; auto.
    intros H. apply bind_ok in H. destruct H as ((s1, p1) & E1 & H). apply (ps_get_le e' e _ _ _ _ _ He) in E1. rewrite E1. cbn [bind].
    apply bind_ok in H. destruct H as ((s2, p2) & E2 & H). apply (ps_get_le e' e _ _ _ _ _ He) in E2. rewrite E2. cbn [bind].
    apply bind_ok in H. destruct H as ((s3, p3) & E3 & H). apply (ps_get_le e' e _ _ _ _ _ He) in E3. rewrite E3. cbn [bind].
    apply bind_ok in H. destruct H as ((s4, p4) & E4 & H). apply (ps_get_le e' e _ _ _ _ _ He) in E4. rewrite E4. cbn [bind].
    apply bind_ok in H. destruct H as ((h, v) & E5 & H). rewrite E5. cbn [bind]. destruct (split q h v); apply IH, H.
  Qed.
  Lemma subdivide_all_le e' e fuel : le_eval e' e -> forall starts st quads out,
    subdivide_all fuel e' decide st starts quads = Ok out -> subdivide_all fuel e decide st starts quads = Ok out.
  Proof.
    intros He. induction starts as [|q rest IH]; intros st quads out; cbn [subdivide_all]; [auto|].
    intros H. apply bind_ok in H. destruct H as ((s1, q1) & E1 & H). rewrite (subdivide_le e' e fuel He _ _ _ _ E1). cbn [bind]. apply IH, H.
  Qed.
  Lemma mesh_sections_le fuel sd : forall es' es, Forall2 le_eval es' es -> forall pts out,
    mesh_sections fuel decide sd pts es' = Ok out -> mesh_sections fuel decide sd pts es = Ok out.
  Proof.
    induction 1 as [|e' e es' es He _ IH]; intros pts out; cbn [mesh_sections]; [auto|].
    intros H. apply bind_ok in H. destruct H as ((s1, q1) & E1 & H). rewrite (subdivide_all_le e' e fuel He _ _ _ _ E1). cbn [bind].
    apply bind_ok in H. destruct H as ((p2, o2) & E2 & H). rewrite (IH _ _ E2). exact H.
  Qed.
  Lemma mesher_le fuel sd Nx Ny es' es out : Forall2 le_eval es' es ->
    mesher fuel decide sd Nx Ny es' = Ok out -> mesher fuel decide sd Nx Ny es = Ok out.
  Proof.
    intros He H. unfold mesher in *. apply bind_ok in H. destruct H as (x & E & H). rewrite (mesh_sections_le fuel sd _ _ He _ _ E). exact H.
  Qed.
End Mono.

(** ** Runs whose decisions are the same are the same *)
Lemma refine_ext (Inv : quad -> Prop) dec dec' :
  (forall q, Inv q -> dec' q = dec q) ->
  (forall q h v cs, Inv q -> dec q = Ok (h, v) -> split q h v = Some cs -> Forall Inv cs) ->
  forall fuel todo quads, Forall Inv todo -> refine fuel dec' todo quads = refine fuel dec todo quads.
Proof.
  intros H1 H2. induction fuel as [|fuel IH]; intros todo quads Ht; destruct todo as [|q rest]; cbn [refine]; try reflexivity.
  inversion Ht as [|? ? Hq Hr]; subst. rewrite (H1 q Hq). destruct (dec q) as [(h, v)|] eqn:Ed; [|reflexivity]. cbn [bind].
  destruct (split q h v) as [cs|] eqn:Es; [|apply IH, Hr]. apply IH. apply Forall_app. split; [exact (H2 q h v cs Hq Ed Es)|exact Hr].
Qed.
Lemma refine_all_ext (Inv : quad -> Prop) dec dec' :
  (forall q, Inv q -> dec' q = dec q) ->
  (forall q h v cs, Inv q -> dec q = Ok (h, v) -> split q h v = Some cs -> Forall Inv cs) ->
  forall fuel starts quads, Forall Inv starts -> refine_all fuel dec' starts quads = refine_all fuel dec starts quads.
Proof.
  intros H1 H2 fuel. induction starts as [|q rest IH]; intros quads Hs; cbn [refine_all]; [reflexivity|].
  inversion Hs; subst. rewrite (refine_ext Inv dec dec' H1 H2) by (repeat constructor; assumption).
  destruct (refine fuel dec [q] quads); [|reflexivity]. cbn [bind]. apply IH. assumption.
Qed.

(** ** Shapes: depth and the two widths of a cell *)
Definition shape : Type := nat * nat * nat.
Definition shape_of (q : quad) : shape := (qd q, qi1 q - qi0 q, qj1 q - qj0 q).
Section Shapes.
  Variable delta : shape -> bool * bool.
  (** the shape of the cells that a cell of the shape [s] is divided into in the end *)
  Inductive leads : shape -> shape -> Prop :=
  | leads_done s : delta s = (false, false) -> leads s s
  | leads_step d a b h v t : delta (d, a, b) = (h, v) -> h || v = true ->
      leads (S d, if v then 1 else 2 * a, if h then 1 else 2 * b) t -> leads (d, a, b) t.

  Lemma leads_multiple s t : leads s t ->
    (exists n, snd (fst s) * 2 ^ fst (fst t) = n * (snd (fst t) * 2 ^ fst (fst s))) /\
    (exists n, snd s * 2 ^ fst (fst t) = n * (snd t * 2 ^ fst (fst s))).
  Proof.
    induction 1 as [s Hd|d a b h v t Hd Hn _ IH].
    - split; exists 1; ring.
    - cbn [fst snd] in *. destruct t as ((D, A), B). cbn [fst snd Nat.pow] in *. destruct IH as ((n & Hx) & (m & Hy)). split.
      + destruct v; [exists (2 * a * n); nia|exists n; nia].
      + destruct h; [exists (2 * b * m); nia|exists m; nia].
  Qed.
  Lemma leads_end s t : leads s t -> delta s = (false, false) -> s = t.
  Proof. intros [x _|d a b h v x Hd Hn _] H; [reflexivity|]. rewrite H in Hd. injection Hd as <- <-. discriminate. Qed.
  Lemma leads_pos s t : leads s t -> 0 < snd (fst s) -> 0 < snd s -> 0 < snd (fst t) /\ 0 < snd t.
  Proof.
    induction 1 as [s Hd|d a b h v t Hd Hn _ IH]; [auto|]. cbn [fst snd] in *. intros Ha Hb. apply IH; [destruct v|destruct h]; lia.
  Qed.

  (** a cell that is divided into cells of the shape [t] *)
  Definition fits (t : shape) (q : quad) : Prop :=
    wfq q /\ (exists k, qi0 q = k * (qi1 q - qi0 q)) /\ (exists k, qj0 q = k * (qj1 q - qj0 q)) /\ leads (shape_of q) t.
  Lemma fits_split t q h v cs : fits t q -> delta (shape_of q) = (h, v) -> split q h v = Some cs -> Forall (fits t) cs.
  Proof.
    intros (W & (k & Hk) & (l & Hl) & HL) Hd Hs. pose proof (split_wf q h v cs W Hs) as Ws. destruct W as (W1 & W2 & W3 & W4).
    assert (HL' : leads (S (qd q), if v then 1 else 2 * (qi1 q - qi0 q), if h then 1 else 2 * (qj1 q - qj0 q)) t).
    { unfold shape_of in HL, Hd. inversion HL as [? E|? ? ? h' v' ? E En HL']; subst.
      - rewrite Hd in E. injection E as -> ->. discriminate.
      - rewrite Hd in E. injection E as <- <-. exact HL'. }
    destruct h, v; cbv beta iota zeta delta [split] in Hs; try discriminate; apply some_inj in Hs; subst cs;
    repeat match goal with
    | Hx : Forall wfq (_ :: _) |- _ => inversion Hx as [|? ? ?W ?Ws]; subst; clear Hx
    end; repeat apply Forall_cons; try apply Forall_nil; (split; [assumption|]); unfold shape_of; cbn [qd qi0 qi1 qj0 qj1].
    all: repeat match goal with |- context [?x + 1 - ?x] => replace (x + 1 - x) with 1 by lia | |- context [?x + 2 - (?x + 1)] => replace (x + 2 - (x + 1)) with 1 by lia end.
    all: try (replace (2 * qi1 q - 2 * qi0 q) with (2 * (qi1 q - qi0 q)) by lia); try (replace (2 * qj1 q - 2 * qj0 q) with (2 * (qj1 q - qj0 q)) by lia).
    all: (split; [|split; [|exact HL']]); try (eexists; rewrite Nat.mul_1_r; reflexivity); try (exists k; nia); try (exists l; nia).
  Qed.

  (** the grid of the corners of the cells of the shape [t] *)
  Definition on_grid (t : shape) (d i j : nat) : bool :=
    ((i * 2 ^ fst (fst t)) mod (snd (fst t) * 2 ^ d) =? 0) && ((j * 2 ^ fst (fst t)) mod (snd t * 2 ^ d) =? 0).
  Lemma mod_zero x y : y <> 0 -> (x mod y =? 0) = true <-> exists n, x = n * y.
  Proof. intros H. rewrite Nat.eqb_eq, Nat.mod_divide by exact H. reflexivity. Qed.
  Lemma on_grid_iff t d i j : 0 < snd (fst t) -> 0 < snd t ->
    on_grid t d i j = true <-> (exists n, i * 2 ^ fst (fst t) = n * (snd (fst t) * 2 ^ d)) /\ (exists n, j * 2 ^ fst (fst t) = n * (snd t * 2 ^ d)).
  Proof.
    intros HA HB. unfold on_grid. pose proof (Nat.pow_nonzero 2 d ltac:(lia)).
    rewrite andb_true_iff, !mod_zero by nia. reflexivity.
  Qed.
  Lemma on_grid_double t d i j : 0 < snd (fst t) -> 0 < snd t -> on_grid t (S d) (2 * i) (2 * j) = on_grid t d i j.
  Proof.
    intros HA HB. apply eq_true_iff_eq. rewrite !on_grid_iff by assumption. cbn [Nat.pow].
    split; intros ((n & X) & (m & Y)); (split; [exists n|exists m]); nia.
  Qed.
  Lemma fits_grid t q : fits t q -> 0 < snd (fst t) -> 0 < snd t ->
    on_grid t (qd q) (qi0 q) (qj0 q) = true /\ on_grid t (qd q) (qi0 q) (qj1 q) = true /\
    on_grid t (qd q) (qi1 q) (qj0 q) = true /\ on_grid t (qd q) (qi1 q) (qj1 q) = true.
  Proof.
    intros ((W1 & W2 & W3 & W4) & (k & Hk) & (l & Hl) & HL) HA HB. rewrite !on_grid_iff by assumption.
    destruct (leads_multiple _ _ HL) as ((n & X) & (m & Y)). unfold shape_of in X, Y. cbn [fst snd] in X, Y.
    assert (I0 : exists n, qi0 q * 2 ^ fst (fst t) = n * (snd (fst t) * 2 ^ qd q)).
    { exists (k * n). rewrite Hk at 1. rewrite <- Nat.mul_assoc, X. ring. }
    assert (I1 : exists n, qi1 q * 2 ^ fst (fst t) = n * (snd (fst t) * 2 ^ qd q)).
    { exists ((k + 1) * n). replace (qi1 q) with ((k + 1) * (qi1 q - qi0 q)) at 1 by lia. rewrite <- Nat.mul_assoc, X. ring. }
    assert (J0 : exists n, qj0 q * 2 ^ fst (fst t) = n * (snd t * 2 ^ qd q)).
    { exists (l * m). rewrite Hl at 1. rewrite <- Nat.mul_assoc, Y. ring. }
    assert (J1 : exists n, qj1 q * 2 ^ fst (fst t) = n * (snd t * 2 ^ qd q)).
    { exists ((l + 1) * m). replace (qj1 q) with ((l + 1) * (qj1 q - qj0 q)) at 1 by lia. rewrite <- Nat.mul_assoc, Y. ring. }
    auto.
  Qed.
  Lemma shape_eq (d a a' b b' : nat) : a = a' -> b = b' -> (d, a, b) = (d, a', b').
  Proof. congruence. Qed.
  (** a run that ends determines the shape *)
  Lemma ends_leads n : forall q, wfq q -> ends (fun q => Ok (delta (shape_of q))) n q -> exists t, leads (shape_of q) t.
  Proof.
    induction n as [|n IH]; intros q W (h & v & Hd & Hs); injection Hd as Hd.
    - destruct h, v; cbn [split] in Hs; try contradiction. exists (shape_of q). apply leads_done, Hd.
    - destruct (split q h v) as [cs|] eqn:Es.
      + pose proof (split_wf q h v cs W Es) as Ws. destruct W as (W1 & W2 & W3 & W4).
        destruct h, v; cbv beta iota zeta delta [split] in Es; try discriminate; apply some_inj in Es; subst cs; inversion Hs as [|c ? Hc _]; subst; inversion Ws as [|? ? Wc _]; subst;
        (destruct (IH _ Wc Hc) as (t & Ht); exists t; unfold shape_of in *; cbn [qd qi0 qi1 qj0 qj1] in Ht; eapply leads_step; [exact Hd|reflexivity|]);
        cbv iota; (match type of Ht with leads ?x _ => match goal with |- leads ?y _ => replace y with x; [exact Ht|] end end); apply shape_eq; clear - W1 W3; lia.
      + exists (shape_of q). apply leads_done. destruct h, v; cbn [split] in Es; try discriminate. exact Hd.
  Qed.
End Shapes.

(** ** Two triangles for each cell, no position numbered in between *)
Local Open Scope R_scope.
Lemma strictly_between K k s : 0 < s < 1 -> INR K = INR k + s -> False.
Proof.
  intros Hs H. assert (H1 : INR k < INR K) by lra. assert (H2 : INR K < INR (S k)) by (rewrite S_INR; lra).
  apply INR_lt in H1, H2. lia.
Qed.
(** a triangle of a regular grid whose cells are cut along one diagonal *)
Definition node (hx hy : R) (k l : nat) : ppoint := (hx * INR k, hy * INR l).
Definition half_cell (hx hy : R) (t : ptri) : Prop := exists k l,
  t = (node hx hy k l, node hx hy k (S l), node hx hy (S k) (S l)) \/
  t = (node hx hy k l, node hx hy (S k) (S l), node hx hy (S k) l).
Lemma half_cells_conform hx hy T : 0 < hx -> 0 < hy -> Forall (half_cell hx hy) T -> conforming T.
Proof.
  intros Hx Hy HT t t' p q x s Ht Ht' He Hc Hs E. rewrite Forall_forall in HT.
  assert (HX : exists K L, x = node hx hy K L).
  { destruct (HT t' Ht') as (k & l & [-> | ->]); destruct Hc as [-> |[-> | ->]]; eexists _, _; reflexivity. }
  destruct HX as (K & L & ->). unfold node in E. injection E as E1 E2.
  assert (CX : forall k, hx * INR K = (1 - s) * (hx * INR k) + s * (hx * INR (S k)) -> False).
  { intros k H. apply (strictly_between K k s Hs). rewrite S_INR in H. apply (Rmult_eq_reg_l hx); [lra|lra]. }
  assert (CX' : forall k, hx * INR K = (1 - s) * (hx * INR (S k)) + s * (hx * INR k) -> False).
  { intros k H. apply (strictly_between K k (1 - s)); [lra|]. rewrite S_INR in H. apply (Rmult_eq_reg_l hx); [lra|lra]. }
  assert (CY : forall l, hy * INR L = (1 - s) * (hy * INR l) + s * (hy * INR (S l)) -> False).
  { intros l H. apply (strictly_between L l s Hs). rewrite S_INR in H. apply (Rmult_eq_reg_l hy); [lra|lra]. }
  assert (CY' : forall l, hy * INR L = (1 - s) * (hy * INR (S l)) + s * (hy * INR l) -> False).
  { intros l H. apply (strictly_between L l (1 - s)); [lra|]. rewrite S_INR in H. apply (Rmult_eq_reg_l hy); [lra|lra]. }
  destruct (HT t Ht) as (k & l & [-> | ->]); destruct He as [(-> & ->)|[(-> & ->)|(-> & ->)]]; unfold node in E1, E2; cbn [fst snd] in E1, E2; eauto.
Qed.

Local Open Scope nat_scope.
Definition scaled (depth : nat) (t : shape) : nat * nat := (2 ^ (depth - fst (fst t)) * snd (fst t), 2 ^ (depth - fst (fst t)) * snd t).
Lemma on_grid_scaled t depth i j : fst (fst t) <= depth -> 0 < snd (fst t) -> 0 < snd t -> on_grid t depth i j = true ->
  (exists n, i = n * fst (scaled depth t)) /\ (exists n, j = n * snd (scaled depth t)).
Proof.
  intros Hd HA HB H. apply on_grid_iff in H; try assumption. destruct t as ((D, A), B). unfold scaled. cbn [fst snd] in *.
  assert (E : 2 ^ depth = 2 ^ (depth - D) * 2 ^ D) by (rewrite <- Nat.pow_add_r; f_equal; lia). rewrite E in H.
  pose proof (Nat.pow_nonzero 2 D ltac:(lia)) as N.
  destruct H as ((n & X) & (m & Y)). split; [exists n|exists m]; (apply (Nat.mul_cancel_r _ _ (2 ^ D) N)); [rewrite X|rewrite Y]; ring.
Qed.
Lemma not_between k n W x : k * W < x -> x < (k + 1) * W -> x = n * W -> False.
Proof. intros H1 H2 ->. assert (k < n) by nia. assert (n < k + 1) by nia. lia. Qed.
Lemma strict_mid k W : 1 < W -> k * W < (k * W + (k + 1) * W) / 2 /\ (k * W + (k + 1) * W) / 2 < (k + 1) * W.
Proof.
  intros H. assert (E : k * W + (k + 1) * W = 2 * (k * W) + W) by ring. rewrite E.
  pose proof (Nat.div_mod (2 * (k * W) + W) 2 ltac:(lia)). pose proof (Nat.mod_upper_bound (2 * (k * W) + W) 2 ltac:(lia)). lia.
Qed.
Lemma uniform_triangles {P} (e : nat -> nat -> nat -> result P) pts t depth m q :
  fst (fst t) <= depth -> 0 < snd (fst t) -> 0 < snd t ->
  ok_map e pts depth m -> (forall i j p, e depth i j = Ok p -> on_grid t depth i j = true) ->
  at_depth depth m q -> (exists k l, qi0 q = k * fst (scaled depth t) /\ qi1 q = (k + 1) * fst (scaled depth t) /\
    qj0 q = l * snd (scaled depth t) /\ qj1 q = (l + 1) * snd (scaled depth t)) ->
  quad_triangles depth m q = Ok [((qi0 q, qj0 q), (qi0 q, qj1 q), (qi1 q, qj1 q)); ((qi0 q, qj0 q), (qi1 q, qj1 q), (qi1 q, qj0 q))].
Proof.
  intros HD HA HB Hm He Hq (k & l & I0 & I1 & J0 & J1). destruct Hq as (Hdq & (W1 & W2 & W3 & W4) & _). rewrite Hdq in *.
  assert (HN : forall i j, m i j <> None -> (exists n, i = n * fst (scaled depth t)) /\ (exists n, j = n * snd (scaled depth t))).
  { intros i j H. destruct (m i j) as [x|] eqn:E; [|congruence]. destruct (Hm i j x E) as (_ & _ & p & _ & Hp).
    apply (on_grid_scaled t depth); try assumption. exact (He i j p Hp). }
  assert (PI : forall j, j <= 2 ^ depth -> 1 < qi1 q - qi0 q -> forall x, x = (qi0 q + qi1 q) / 2 -> present depth m (x, j) = Ok false).
  { intros j Hj Hw x Hx. assert (HW : 1 < fst (scaled depth t)) by lia. pose proof (strict_mid k _ HW) as (S1 & S2). rewrite <- I0, <- I1, <- Hx in *.
    unfold present. cbn [fst snd]. rewrite read_map_in by lia. cbn [bind]. destruct (m x j) eqn:E; [|reflexivity]. exfalso.
    destruct (HN x j) as ((n' & X) & _); [congruence|]. apply (not_between k n' (fst (scaled depth t)) x); [lia|lia|exact X]. }
  assert (PJ : forall i, i <= 2 ^ depth -> 1 < qj1 q - qj0 q -> forall x, x = (qj0 q + qj1 q) / 2 -> present depth m (i, x) = Ok false).
  { intros i Hi Hw x Hx. assert (HW : 1 < snd (scaled depth t)) by lia. pose proof (strict_mid l _ HW) as (S1 & S2). rewrite <- J0, <- J1, <- Hx in *.
    unfold present. cbn [fst snd]. rewrite read_map_in by lia. cbn [bind]. destruct (m i x) eqn:E; [|reflexivity]. exfalso.
    destruct (HN i x) as (_ & (n' & X)); [congruence|]. apply (not_between l n' (snd (scaled depth t)) x); [lia|lia|exact X]. }
  clear He Hm HN.
  assert (Same : forall a, absdiff a a = 0) by (intros; unfold absdiff; lia).
  assert (AB : forall a b, a < b -> absdiff a b = b - a /\ absdiff b a = b - a) by (intros; unfold absdiff; lia).
  destruct (AB _ _ W1) as (A1 & A2), (AB _ _ W3) as (A3 & A4).
  unfold quad_triangles. cbn [split_edges fst snd]. rewrite !Same, A1, A2, A3, A4, !half_double.
  replace (1 <? 0) with false by reflexivity. rewrite !orb_false_r, !orb_false_l.
  rewrite (Nat.add_comm (qj1 q) (qj0 q)), (Nat.add_comm (qi1 q) (qi0 q)).
  assert (QI : forall j, j <= 2 ^ depth -> (if 1 <? qi1 q - qi0 q then present depth m ((qi0 q + qi1 q) / 2, j) else Ok false) = Ok false).
  { intros j Hj. destruct (Nat.ltb_spec 1 (qi1 q - qi0 q)); [|reflexivity]. apply PI; auto. }
  assert (QJ : forall i, i <= 2 ^ depth -> (if 1 <? qj1 q - qj0 q then present depth m (i, (qj0 q + qj1 q) / 2) else Ok false) = Ok false).
  { intros i Hi. destruct (Nat.ltb_spec 1 (qj1 q - qj0 q)); [|reflexivity]. apply PJ; auto. }
  rewrite !QI, !QJ by lia. reflexivity.
Qed.

(** ** The whole mesh of a surface of one section *)
Section Whole.
  Variables (s : surface) (msize : vec3 -> result R) (sd : nat) (delta : shape -> bool * bool).
  Hypothesis E1 : sbps1 s = [].
  Hypothesis E2 : sbps2 s = [].
  Hypothesis L1 : (0 < slen1 s)%R.
  Hypothesis L2 : (0 < slen2 s)%R.
  Let r : rect := ((0%R, slen1 s), (0%R, slen2 s)).
  Let ev := index_to_point (rsection s r).
  Let dec := decision ev (decide_split msize).
  Hypothesis Hdec : forall q, wfq q -> dec q = Ok (delta (shape_of q)).
  Variable n : nat.
  Hypothesis Hends : Forall (ends dec n) (start_quads sd).

  Lemma one_rect : rects s = [r].
  Proof. unfold rects. rewrite E1, E2. reflexivity. Qed.
  Lemma ends_delta m : forall q, wfq q -> ends dec m q -> ends (fun q => Ok (delta (shape_of q))) m q.
  Proof.
    induction m as [|m IH]; intros q W (h & v & Hd & Hs); exists h, v; rewrite Hdec in Hd by exact W; (split; [exact Hd|]);
      destruct (split q h v) as [cs|] eqn:Es; try exact I; [exact Hs|].
    pose proof (split_wf q h v cs W Es) as Ws. rewrite Forall_forall in *. intros c Hc. apply IH; auto.
  Qed.
  Lemma start_shape : Forall (fun q => shape_of q = (sd, 1, 1) /\ qi1 q = qi0 q + 1 /\ qj1 q = qj0 q + 1) (start_quads sd).
  Proof.
    unfold start_quads. apply Forall_flat_map, Forall_forall. intros i _. apply Forall_map, Forall_forall. intros j _.
    unfold shape_of. cbn [qd qi0 qi1 qj0 qj1]. split; [|lia]. apply shape_eq; lia.
  Qed.
  Lemma end_shape : exists t, leads delta (sd, 1, 1) t.
  Proof.
    pose proof (start_nonempty sd) as HN. pose proof start_shape as HS. pose proof (start_wf sd) as HW.
    destruct (start_quads sd) as [|q rest]; [congruence|]. inversion Hends as [|? ? He _]; subst. inversion HS as [|? ? (Es & _) _]; subst.
    inversion HW as [|? ? (Wq & _) _]; subst. rewrite <- Es. apply (ends_leads delta n q Wq). apply ends_delta; assumption.
  Qed.
  Lemma start_fits t : leads delta (sd, 1, 1) t -> Forall (fits delta t) (start_quads sd).
  Proof.
    intros HL. pose proof start_shape as HS. pose proof (start_wf sd) as HW. rewrite Forall_forall in *. intros q Hq.
    destruct (HS q Hq) as (A & B & C), (HW q Hq) as (W & _). split; [exact W|]. rewrite B, C.
    split; [exists (qi0 q); lia|]. split; [exists (qj0 q); lia|]. rewrite A. exact HL.
  Qed.

  (** the surface, only looked at on the grid of the final cells *)
  Definition thin (t : shape) (d i j : nat) : result vec3 := if on_grid t d i j then ev d i j else Err ValueError.
  Lemma thin_le t : le_eval (thin t) ev.
  Proof. intros d i j p. unfold thin. destruct (on_grid t d i j); [auto|discriminate]. Qed.
  Lemma thin_compatible t : 0 < snd (fst t) -> 0 < snd t -> compatible (thin t).
  Proof. intros HA HB d i j. unfold thin. rewrite on_grid_double by assumption. destruct (on_grid t d i j); [apply index_compatible|reflexivity]. Qed.
  Lemma thin_dec t q : fits delta t q -> 0 < snd (fst t) -> 0 < snd t -> decision (thin t) (decide_split msize) q = dec q.
  Proof.
    intros HF HA HB. destruct (fits_grid delta t q HF HA HB) as (G1 & G2 & G3 & G4). unfold dec, decision, thin. rewrite G1, G2, G3, G4. reflexivity.
  Qed.

  Lemma uniform_mesh : exists N, forall fuel, N <= fuel -> exists pts tris info,
    mesh_surface fuel s msize sd = Ok ((pts, tris), info) /\
    exists T, Forall2 (tri_on (sfun s) Ok pts) T tris /\ welded T tris /\ oriented T /\ no_overlap T /\
      inside 0 (slen1 s) 0 (slen2 s) T /\ conforming T /\
      ((forall qs, section_quads fuel (decide_split msize) sd ev = Ok qs -> cell_cover qs) -> covers 0 (slen1 s) 0 (slen2 s) T).
  Proof.
    destruct end_shape as (t & HL). pose proof (start_fits t HL) as HS.
    destruct (leads_pos delta _ _ HL) as (HA & HB); cbn [fst snd]; try lia.
    destruct (refine_all_ends dec n (start_quads sd) Hends) as (N & HN). exists N. intros fuel Hf.
    destruct (HN fuel [] Hf) as (qs & Hqs).
    assert (Hfs : forall q h v cs, fits delta t q -> dec q = Ok (h, v) -> split q h v = Some cs -> Forall (fits delta t) cs).
    { intros q h v cs HF Hd Hs. apply (fits_split delta t q h v cs HF); [|exact Hs]. rewrite Hdec in Hd by apply HF. congruence. }
    assert (Hleaf : Forall (fun q => fits delta t q /\ shape_of q = t) qs).
    { assert (A : Forall (fits delta t) qs).
      { apply (refine_all_inv dec (Forall (fits delta t))) with (fuel := fuel) (starts := start_quads sd) (quads := []).
        - intros l m HP H. eapply Permutation_Forall; eassumption.
        - intros q rest h v cs Hd Hs H. inversion H; subst. apply Forall_app. split; [eapply Hfs; eassumption|assumption].
        - exact Hqs.
        - rewrite app_nil_r. exact HS. }
      pose proof (refine_all_done fuel dec _ _ _ Hqs ltac:(constructor)) as B. rewrite Forall_forall in *. intros q Hq. split; [apply A, Hq|].
      destruct (A q Hq) as (W & _ & _ & HLq). specialize (B q Hq). rewrite Hdec in B by exact W. injection B as B.
      exact (leads_end delta _ _ HLq B). }
    assert (Hqs' : section_quads fuel (decide_split msize) sd (thin t) = Ok qs).
    { unfold section_quads. rewrite (refine_all_ext (fits delta t) dec); [exact Hqs| |exact Hfs|exact HS]. intros q Hq. apply thin_dec; assumption. }
    pose proof (mesher_spec fuel (decide_split msize) sd 1 1 [thin t]
      (fun depth pts ms => exists m, ms = [m] /\ ok_map (thin t) pts depth m)) as G.
    assert (G0 : Forall compatible [thin t]) by (repeat constructor; apply thin_compatible; assumption).
    specialize (G G0 eq_refl).
    assert (G1 : forall depth (pts : list vec3) ms, Forall2 (fun e m => ok_map e pts depth m) [thin t] ms ->
       exists ms', stitch (2 ^ depth) 1 1 ms = Ok ms' /\ (exists m, ms' = [m] /\ ok_map (thin t) pts depth m) /\ Forall2 sub_map ms ms').
    { intros depth pts ms H. inversion H as [|? m ? ms' Hm Hr]; subst. inversion Hr; subst. exists [m]. split; [reflexivity|].
      split; [exists m; auto|]. repeat constructor. apply sub_map_refl. }
    specialize (G G1). clear G1.
    assert (G2 : forall depth (pts : list vec3) ms, (exists m, ms = [m] /\ ok_map (thin t) pts depth m) ->
       Forall (vals (fun k => k < length pts) (2 ^ depth)) ms).
    { intros depth pts ms (m & -> & Hm). constructor; [exact (ok_vals _ _ _ _ Hm)|constructor]. }
    specialize (G G2). clear G2. cbn [mapM] in G. rewrite Hqs' in G. cbn [bind map] in G.
    destruct G as (pts & tris & depth & ms & kss & EM & Hwf & (m & -> & Hm) & Hat & Htris & Hres).
    assert (ES : mesh_surface fuel s msize sd = Ok ((pts, tris), (depth, [m], [map (scale_quad depth) qs]))).
    { unfold mesh_surface. rewrite E1, E2. fold (evals s). rewrite evals_rects, one_rect. cbn [map length Nat.add].
      eapply mesher_le; [|exact EM]. repeat constructor. apply thin_le. }
    exists pts, tris, (depth, [m], [map (scale_quad depth) qs]). split; [exact ES|].
    assert (Hw : well_cut s).
    { split; rewrite ?E1, ?E2; unfold cuts; cbn [app]; repeat constructor; assumption. }
    destruct (mesh_surface_whole fuel s msize sd pts tris depth _ _ Hw (or_introl E1) ES) as (HR & HE & _).
    pose proof HR as HR'. unfold maps_right in HR'. rewrite one_rect in HR'. inversion HR' as [|? ? ? ? HR1 _]; subst.
    inversion Hres as [|? ks ? kss' (tss & Et & Hk) Hrest]; subst. inversion Hrest; subst. cbn [combine fst snd concat] in *. rewrite app_nil_r in *.
    inversion Hat as [|? ? ? ? Hat1 _]; subst. inversion Hwf as [|? ? Hwf1 _]; subst.
    assert (Hd : ForallOrdPairs disj (map (scale_quad depth) qs)).
    { destruct (quads_disj dec fuel sd qs Hqs) as (HD & _). apply FOP_map. clear - HD Hwf1. induction HD as [|a l Ha _ IH]; [constructor|].
      inversion Hwf1 as [|? ? (_ & Wa) Wl]; subst. constructor; [|apply IH, Wl].
      rewrite Forall_forall in Ha, Wl |- *. intros b Hb X Y. destruct (Wl b Hb) as (_ & Wb). rewrite !scale_open by assumption. apply Ha, Hb. }
    destruct (section_tiles 0%R (slen1 s) 0%R (slen2 s) depth L1 L2 m (map (scale_quad depth) qs) tss Hat1 Hd Et) as (B1 & B2 & B3 & B4 & B5).
    exists (map (tri_param 0%R (slen1 s) 0%R (slen2 s) depth) (concat tss)).
    assert (Hdep : fst (fst t) <= depth).
    { destruct qs as [|q qs]; [|inversion Hleaf as [|? ? (_ & X) _]; subst; inversion Hwf1 as [|? ? (_ & Y) _]; subst; exact Y].
      exfalso. apply (refine_all_nonempty dec fuel (start_quads sd) [] [] Hqs); [left; apply start_nonempty|reflexivity]. }
    split; [|split; [|split; [exact B1|split; [exact B2|split; [exact B3|split]]]]].
    - apply Forall2_map_l. eapply Forall2_impl_all; [|exact Hk]. intros x k. apply (right_tri s r depth pts m), HR1.
    - apply (weld s depth pts [m] _ _ Hw (or_introl E1) HR HE). intros x k Hin. exists 0, r, m. rewrite one_rect. split; [reflexivity|]. split; [reflexivity|].
      assert (HF : Forall2 (located depth r m) (map (tri_param 0%R (slen1 s) 0%R (slen2 s) depth) (concat tss)) ks).
      { apply Forall2_map_l. eapply Forall2_impl_all; [|exact Hk]. intros y k'. apply (located_tri r). }
      clear - HF Hin. revert Hin. induction HF as [|a b la lb H _ IH]; cbn [combine In]; [tauto|]. intros [E|Hin]; [injection E as <- <-; exact H|apply IH, Hin].
    - pose proof (pw_pos depth) as Hp. assert (SP : 0 < fst (scaled depth t) /\ 0 < snd (scaled depth t)).
      { unfold scaled. cbn [fst snd]. pose proof (Nat.pow_nonzero 2 (depth - fst (fst t)) ltac:(lia)). nia. }
      apply (half_cells_conform (slen1 s / pw depth * INR (fst (scaled depth t)))%R (slen2 s / pw depth * INR (snd (scaled depth t)))%R).
      { apply Rmult_lt_0_compat; [apply Rdiv_lt_0_compat; lra|apply lt_0_INR, SP]. }
      { apply Rmult_lt_0_compat; [apply Rdiv_lt_0_compat; lra|apply lt_0_INR, SP]. }
      apply Forall_map, Forall_concat. apply mapM_ok in Et. apply Forall2_map_l in Et.
      assert (Hall : Forall (fun q => (fits delta t q /\ shape_of q = t) /\ at_depth depth m (scale_quad depth q)) qs).
      { rewrite Forall_map in Hat1. rewrite Forall_forall in *. intros q Hq. split; [apply Hleaf, Hq|apply Hat1, Hq]. }
      clear - Et Hall Hdep HA HB Hm Hp. induction Et as [|q ts qs tss H _ IH]; constructor; inversion Hall as [|? ? ((HF & Hsh) & Ha) Hall']; subst; [|apply IH, Hall'].
      destruct HF as ((W1 & W2 & W3 & W4) & (k & Hk) & (l & Hl) & _).
      assert (HQ : exists k l, qi0 (scale_quad depth q) = k * fst (scaled depth (shape_of q)) /\ qi1 (scale_quad depth q) = (k + 1) * fst (scaled depth (shape_of q)) /\
        qj0 (scale_quad depth q) = l * snd (scaled depth (shape_of q)) /\ qj1 (scale_quad depth q) = (l + 1) * snd (scaled depth (shape_of q))).
      { exists k, l. unfold scaled, shape_of, scale_quad. cbn [fst snd qi0 qi1 qj0 qj1]. set (w := qi1 q - qi0 q) in *. set (z := qj1 q - qj0 q) in *.
        assert (X : qi1 q = (k + 1) * w) by (unfold w in *; lia). assert (Y : qj1 q = (l + 1) * z) by (unfold z in *; lia).
        rewrite X, Y, Hk, Hl. repeat split; ring. }
      rewrite (uniform_triangles (thin (shape_of q)) pts (shape_of q) depth m (scale_quad depth q) Hdep HA HB Hm) in H; [| |exact Ha|exact HQ].
      2: { intros i j p. unfold thin. destruct (on_grid (shape_of q) depth i j); [auto|discriminate]. }
      assert (OI : forall (a b : list tri_pos), Ok a = Ok b -> a = b) by (intros a b [=]; assumption). apply OI in H. subst ts. destruct HQ as (k' & l' & Q1 & Q2 & Q3 & Q4).
      assert (GP : forall a b, to_param 0 (slen1 s) 0 (slen2 s) depth (gp (a * fst (scaled depth (shape_of q)), b * snd (scaled depth (shape_of q)))) =
        node (slen1 s / pw depth * INR (fst (scaled depth (shape_of q)))) (slen2 s / pw depth * INR (snd (scaled depth (shape_of q)))) a b).
      { intros a b. unfold to_param, gp, node. cbn [fst snd]. rewrite !mult_INR. apply injective_projections; cbn [fst snd]; field; lra. }
      apply Forall_cons; [|apply Forall_cons; [|apply Forall_nil]]; exists k', l'; [left|right]; unfold tri_param; cbn [fst snd]; rewrite Q1, Q2, Q3, Q4, !GP, !Nat.add_1_r; reflexivity.
    - intros Hc. apply B5. intros X Y HX HY. destruct (Hc qs Hqs X Y HX HY) as (c & Hc1 & Hc2). exists (scale_quad depth c). split; [apply in_map, Hc1|].
      apply scale_closed; [|exact Hc2]. rewrite Forall_forall in Hwf1. apply Hwf1, Hc1.
  Qed.
End Whole.
