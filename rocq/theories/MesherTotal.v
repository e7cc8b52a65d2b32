(** Meshing ends, and never raises, for Lipschitz surfaces and a mesh size bounded from below. *)
From Coq Require Import Reals Lra Psatz Permutation Sorted.
From Verif Require Import Base BaseFacts Vec GeomModel QuadModel KronrodFacts SurfaceModel
  MesherModel MesherFacts MesherRun MesherSpec MesherTile MesherTri MesherSurf MesherEnd MesherWhole.
Local Open Scope R_scope.

(** more fuel does not change the result *)
Section Mono.
  Context {P : Type}.
  Lemma subdivide_mono eval (decide : P -> P -> P -> P -> result (bool * bool)) n m : forall st todo quads out,
    (n <= m)%nat -> subdivide n eval decide st todo quads = Ok out -> subdivide m eval decide st todo quads = Ok out.
  Proof.
    revert m. induction n as [|n IH]; intros m st todo quads out Hle H; destruct todo as [|q rest]; destruct m as [|m]; cbn [subdivide] in *; try exact H; try discriminate; try lia.
    destruct (ps_get eval st (qd q) (qi0 q) (qj0 q)) as [(s1, p1)|]; [|discriminate]. cbn [bind] in *.
    destruct (ps_get eval s1 (qd q) (qi0 q) (qj1 q)) as [(s2, p2)|]; [|discriminate]. cbn [bind] in *.
    destruct (ps_get eval s2 (qd q) (qi1 q) (qj0 q)) as [(s3, p3)|]; [|discriminate]. cbn [bind] in *.
    destruct (ps_get eval s3 (qd q) (qi1 q) (qj1 q)) as [(s4, p4)|]; [|discriminate]. cbn [bind] in *.
    destruct (decide p1 p2 p3 p4) as [(h, v)|]; [|discriminate]. cbn [bind] in *.
    destruct (split q h v); apply (IH m); try lia; exact H.
  Qed.
  Lemma subdivide_all_mono eval (decide : P -> P -> P -> P -> result (bool * bool)) n m : (n <= m)%nat -> forall starts st quads out,
    subdivide_all n eval decide st starts quads = Ok out -> subdivide_all m eval decide st starts quads = Ok out.
  Proof.
    intros Hle. induction starts as [|q rest IH]; intros st quads out H; cbn [subdivide_all] in *; [exact H|].
    apply bind_ok in H. destruct H as ((st', q') & H1 & H). rewrite (subdivide_mono _ _ n m _ _ _ _ Hle H1). cbn [bind].
    apply IH, H.
  Qed.
  Lemma mesh_sections_mono (decide : P -> P -> P -> P -> result (bool * bool)) sd n m : (n <= m)%nat -> forall evs pts out,
    mesh_sections n decide sd pts evs = Ok out -> mesh_sections m decide sd pts evs = Ok out.
  Proof.
    intros Hle. induction evs as [|e evs IH]; intros pts out H; cbn [mesh_sections] in *; [exact H|].
    apply bind_ok in H. destruct H as ((st, qs) & H1 & H). rewrite (subdivide_all_mono _ _ n m Hle _ _ _ _ H1). cbn [bind].
    apply bind_ok in H. destruct H as ((p', o') & H2 & H). rewrite (IH _ _ H2). cbn [bind]. exact H.
  Qed.
  Lemma mesher_mono (decide : P -> P -> P -> P -> result (bool * bool)) sd Nx Ny evs n m out : (n <= m)%nat ->
    mesher n decide sd Nx Ny evs = Ok out -> mesher m decide sd Nx Ny evs = Ok out.
  Proof.
    intros Hle H. unfold mesher in *. apply bind_ok in H. destruct H as ((p', o') & H1 & H).
    rewrite (mesh_sections_mono _ _ n m Hle _ _ _ H1). cbn [bind]. exact H.
  Qed.
End Mono.

(** trees of splits of bounded height *)
Fixpoint ends (dec : quad -> result (bool * bool)) (n : nat) (q : quad) : Prop :=
  exists h v, dec q = Ok (h, v) /\
    match split q h v with
    | None => True
    | Some children => match n with O => False | S n' => Forall (ends dec n') children end
    end.
Lemma refine_nil fuel dec quads : refine fuel dec [] quads = Ok quads.
Proof. destruct fuel; reflexivity. Qed.
Lemma refine_ends dec n : forall q, ends dec n q -> exists k leaves,
  forall fuel rest quads, refine (k + fuel) dec (q :: rest) quads = refine fuel dec rest (quads ++ leaves).
Proof.
  induction n as [|n IH]; intros q (h & v & Hd & Hs).
  - exists 1%nat, [q]. intros fuel rest quads. cbn [Nat.add refine]. rewrite Hd. cbn [bind]. destruct (split q h v); [destruct Hs|reflexivity].
  - destruct (split q h v) as [children|] eqn:Es.
    + assert (X : exists k leaves, forall fuel rest quads, refine (k + fuel) dec (children ++ rest) quads = refine fuel dec rest (quads ++ leaves)).
      { clear - IH Hs. induction Hs as [|c cs Hc _ (k2 & l2 & H2)].
        - exists 0%nat, []. intros. rewrite app_nil_r. reflexivity.
        - destruct (IH c Hc) as (k1 & l1 & H1). exists (k1 + k2)%nat, (l1 ++ l2). intros fuel rest quads.
          rewrite <- Nat.add_assoc. cbn [app]. rewrite H1, H2, app_assoc. reflexivity. }
      destruct X as (k & leaves & X). exists (S k), leaves. intros fuel rest quads. cbn [Nat.add refine]. rewrite Hd. cbn [bind]. rewrite Es. apply X.
    + exists 1%nat, [q]. intros fuel rest quads. cbn [Nat.add refine]. rewrite Hd. cbn [bind]. rewrite Es. reflexivity.
Qed.
Lemma refine_all_ends dec n starts : Forall (ends dec n) starts -> exists N, forall fuel quads, (N <= fuel)%nat ->
  exists out, refine_all fuel dec starts quads = Ok out.
Proof.
  induction 1 as [|q starts Hq _ (N & IH)].
  - exists 0%nat. intros fuel quads _. eexists; reflexivity.
  - destruct (refine_ends dec n q Hq) as (k & leaves & Hk). exists (k + N)%nat. intros fuel quads Hf. cbn [refine_all].
    assert (E : refine fuel dec [q] quads = Ok (quads ++ leaves)).
    { replace fuel with (k + (fuel - k))%nat by lia. rewrite Hk. apply refine_nil. }
    rewrite E. cbn [bind]. apply IH. lia.
Qed.
Lemma ends_mono dec n : forall q, ends dec n q -> ends dec (S n) q.
Proof.
  induction n as [|n IH]; intros q (h & v & Hd & Hs); exists h, v; (split; [exact Hd|]); destruct (split q h v) as [cs|]; try exact I.
  - destruct Hs.
  - change (Forall (ends dec n) cs) in Hs. eapply Forall_impl; [apply IH|exact Hs].
Qed.
Lemma ends_le dec n m q : (n <= m)%nat -> ends dec n q -> ends dec m q.
Proof. induction 1; [auto|]. intros H0. apply ends_mono. auto. Qed.

(** Lipschitz in each parameter on a rectangle *)
Definition lipschitz (F : R -> R -> vec3) (K : R) (ua ub va vb : R) : Prop :=
  (forall u u' v, ua <= u <= ub -> ua <= u' <= ub -> va <= v <= vb -> dist3 (F u v) (F u' v) <= K * Rabs (u - u')) /\
  (forall u v v', ua <= u <= ub -> va <= v <= vb -> va <= v' <= vb -> dist3 (F u v) (F u v') <= K * Rabs (v - v')).

Section Ends.
  Variables (s : surface) (F : R -> R -> vec3) (r : rect) (msize : vec3 -> result R) (K c : R).
  Hypothesis HF : section_total s F r.
  Hypothesis Hu : fst (fst r) <= snd (fst r).
  Hypothesis Hv : fst (snd r) <= snd (snd r).
  Hypothesis HK : 0 <= K.
  Hypothesis Hc : 0 < c.
  Hypothesis HL : lipschitz F K (fst (fst r)) (snd (fst r)) (fst (snd r)) (snd (snd r)).
  Hypothesis Hms : forall p, exists m, msize p = Ok m /\ c <= m.
  Let dec := decision (index_to_point (rsection s r)) (decide_split msize).

  Definition wu q := (snd (fst r) - fst (fst r)) / pw (qd q) * (INR (qi1 q) - INR (qi0 q)).
  Definition wv q := (snd (snd r) - fst (snd r)) / pw (qd q) * (INR (qj1 q) - INR (qj0 q)).
  Lemma wu_nonneg q : wfq q -> 0 <= wu q.
  Proof.
    intros (W & _). apply lt_INR in W. pose proof (pw_pos (qd q)). unfold wu. apply Rmult_le_pos; [|lra].
    apply Rmult_le_pos; [lra|apply Rlt_le, Rinv_0_lt_compat; assumption].
  Qed.
  Lemma wv_nonneg q : wfq q -> 0 <= wv q.
  Proof.
    intros (_ & _ & W & _). apply lt_INR in W. pose proof (pw_pos (qd q)). unfold wv. apply Rmult_le_pos; [|lra].
    apply Rmult_le_pos; [lra|apply Rlt_le, Rinv_0_lt_compat; assumption].
  Qed.
  Lemma hor_le q : wfq q -> q_hor F r q <= K * wv q.
  Proof.
    intros W. pose proof (wv_nonneg q W) as N. destruct W as (W1 & W2 & W3 & W4). destruct HL as (_ & L).
    assert (E : Rabs (cv r (qd q) (qj0 q) - cv r (qd q) (qj1 q)) = wv q).
    { rewrite Rabs_minus_sym. unfold cv, wv in *. rewrite <- (Rabs_pos_eq _ N). f_equal. ring. }
    unfold q_hor, chord_v. rewrite <- E. apply Rmax_lub; apply L; try apply cu_range; try apply cv_range; try assumption; lia.
  Qed.
  Lemma ver_le q : wfq q -> q_ver F r q <= K * wu q.
  Proof.
    intros W. pose proof (wu_nonneg q W) as N. destruct W as (W1 & W2 & W3 & W4). destruct HL as (L & _).
    assert (E : Rabs (cu r (qd q) (qi0 q) - cu r (qd q) (qi1 q)) = wu q).
    { rewrite Rabs_minus_sym. unfold cu, wu in *. rewrite <- (Rabs_pos_eq _ N). f_equal. ring. }
    unfold q_ver, chord_u. rewrite <- E. apply Rmax_lub; apply L; try apply cu_range; try apply cv_range; try assumption; lia.
  Qed.
  (** widths of the children *)
  Lemma child_widths q h v children ch : wfq q -> split q h v = Some children -> In ch children ->
    (if h then 2 * wv ch <= wv q else wv ch = wv q) /\ (if v then 2 * wu ch <= wu q else wu ch = wu q).
  Proof.
    intros (W1 & _ & W3 & _) Hs Hin. apply le_INR in W1, W3. rewrite S_INR in W1, W3.
    pose proof (pw_pos (qd q)) as Hp.
    assert (A : forall x y d, x <= y -> 0 <= d -> d / pw (qd q) * x <= d / pw (qd q) * y).
    { intros x y d Hxy Hd. apply Rmult_le_compat_l; [|exact Hxy]. apply Rmult_le_pos; [exact Hd|apply Rlt_le, Rinv_0_lt_compat, Hp]. }
    assert (B : forall x d, d / (2 * pw (qd q)) * x = d / pw (qd q) * (x / 2)) by (intros; field; lra).
    destruct h, v; cbv beta iota zeta delta [split] in Hs; try discriminate; apply some_inj in Hs; subst children; cbn [In] in Hin;
      repeat destruct Hin as [<-|Hin]; try destruct Hin; unfold wu, wv; cbn [qd qi0 qi1 qj0 qj1]; rewrite pw_S, !B; cells;
      split; try (field; lra);
      match goal with |- 2 * (?d / ?p * ?x) <= ?d / ?p * ?y => replace (2 * (d / p * x)) with (d / p * (2 * x)) by ring end; apply A; lra.
  Qed.
  Lemma quad_ends n : forall a b q, n = (a + b)%nat -> wfq q ->
    K * wv q <= c / 8 * 2 ^ a -> K * wu q <= c / 8 * 2 ^ b -> ends dec n q.
  Proof.
    induction n as [|n IH]; intros a b q En W A B;
      destruct (Hms (q_centre F r q)) as (ms & Hm & Hcm);
      pose proof (hor_le q W) as Lh; pose proof (ver_le q W) as Lv;
      pose proof (chord_nonneg_u F (cu r (qd q) (qi0 q)) (cu r (qd q) (qi1 q)) (cv r (qd q) (qj0 q)) (cv r (qd q) (qj1 q))) as N1;
      pose proof (chord_nonneg_v F (cu r (qd q) (qi0 q)) (cu r (qd q) (qi1 q)) (cv r (qd q) (qj0 q)) (cv r (qd q) (qj1 q))) as N2;
      fold (q_ver F r q) in N1; fold (q_hor F r q) in N2;
      assert (Ed : dec q = Ok (too_long ms (q_hor F r q) (q_ver F r q), too_long ms (q_ver F r q) (q_hor F r q)))
        by (unfold dec; rewrite (decision_at s F r) by assumption; rewrite Hm; reflexivity);
      eexists _, _; (split; [exact Ed|]).
    - assert (a = 0%nat) as -> by lia. assert (b = 0%nat) as -> by lia. simpl in A, B.
      assert (E1 : too_long ms (q_hor F r q) (q_ver F r q) = false) by (apply too_long_false; lra).
      assert (E2 : too_long ms (q_ver F r q) (q_hor F r q) = false) by (apply too_long_false; lra).
      rewrite E1, E2. exact I.
    - destruct (too_long ms (q_hor F r q) (q_ver F r q)) eqn:Eh, (too_long ms (q_ver F r q) (q_hor F r q)) eqn:Ev;
        destruct (split q _ _) as [children|] eqn:Es; try exact I; try discriminate;
        change (Forall (ends dec n) children); pose proof (split_wf _ _ _ _ W Es) as Wc; rewrite Forall_forall in Wc |- *; intros ch Hch;
        destruct (child_widths q _ _ children ch W Es Hch) as (C1 & C2); specialize (Wc ch Hch).
      + apply too_long_true in Eh, Ev.
        destruct a as [|a]; [simpl in A; exfalso; lra|]. destruct b as [|b]; [simpl in B; exfalso; lra|].
        apply (IH a (S b)); [lia|exact Wc| |].
        * simpl in A. nra.
        * pose proof (wu_nonneg ch Wc). nra.
      + apply too_long_true in Eh. destruct a as [|a]; [simpl in A; exfalso; lra|].
        apply (IH a b); [lia|exact Wc| |rewrite C2; exact B]. simpl in A. nra.
      + apply too_long_true in Ev. destruct b as [|b]; [simpl in B; exfalso; lra|].
        apply (IH a b); [lia|exact Wc|rewrite C1; exact A|]. simpl in B. nra.
  Qed.
  Lemma pow_bound x : exists n, x <= 2 ^ n.
  Proof.
    assert (Hup0 : exists n, x <= INR n).
    { destruct (archimed x) as (Hup & _). exists (Z.to_nat (up x)). destruct (Z_le_gt_dec 0 (up x)) as [Hz|Hz].
      - rewrite INR_IZR_INZ, Z2Nat.id by exact Hz. lra.
      - assert (IZR (up x) <= 0) by (apply IZR_le; lia). pose proof (pos_INR (Z.to_nat (up x))). lra. }
    destruct Hup0 as (n & Hn). exists n. clear - Hn.
    assert (INR n <= 2 ^ n); [|lra]. clear. induction n as [|n IH]; [simpl; lra|]. rewrite S_INR. simpl.
    assert (1 <= 2 ^ n) by (apply pow_R1_Rle; lra). lra.
  Qed.
  Lemma scaled_bound x : exists n, x <= c / 8 * 2 ^ n.
  Proof.
    destruct (pow_bound (x / (c / 8))) as (n & Hn). exists n. apply Rmult_le_reg_r with (/ (c / 8)); [apply Rinv_0_lt_compat; lra|].
    replace (c / 8 * 2 ^ n * / (c / 8)) with (2 ^ n) by (field; lra). exact Hn.
  Qed.
  Lemma start_ends sd : exists n, Forall (ends dec n) (start_quads sd).
  Proof.
    destruct (scaled_bound (K * (snd (snd r) - fst (snd r)))) as (a & Ha), (scaled_bound (K * (snd (fst r) - fst (fst r)))) as (b & Hb).
    exists (a + b)%nat. eapply Forall_impl; [|apply start_wf]. cbv beta. intros q (W & _).
    assert (X : forall d, 0 <= d -> forall x y, (x < y)%nat -> (y <= 2 ^ qd q)%nat -> d / pw (qd q) * (INR y - INR x) <= d).
    { intros d Hd x y Hxy Hy. apply le_INR in Hy. rewrite INR_pow in Hy. pose proof (pos_INR x). pose proof (pw_pos (qd q)) as Hp.
      apply Rmult_le_reg_r with (pw (qd q)); [exact Hp|].
      replace (d / pw (qd q) * (INR y - INR x) * pw (qd q)) with (d * (INR y - INR x)) by (field; lra). nra. }
    destruct W as (W1 & W2 & W3 & W4).
    apply (quad_ends (a + b) a b q); [reflexivity|repeat split; assumption| |].
    - eapply Rle_trans; [|exact Ha]. apply Rmult_le_compat_l; [exact HK|]. apply X; [lra|assumption|assumption].
    - eapply Rle_trans; [|exact Hb]. apply Rmult_le_compat_l; [exact HK|]. apply X; [lra|assumption|assumption].
  Qed.
  Lemma section_ends sd : exists N, forall fuel, (N <= fuel)%nat ->
    exists out, section_quads fuel (decide_split msize) sd (index_to_point (rsection s r)) = Ok out.
  Proof.
    destruct (start_ends sd) as (n & Hn). destruct (refine_all_ends dec n (start_quads sd) Hn) as (N & HN).
    exists N. intros fuel Hf. apply HN, Hf.
  Qed.
End Ends.

(** on the rectangle [r] the surface is a Lipschitz function *)
Definition tame (s : surface) (r : rect) : Prop :=
  exists F K, section_total s F r /\ 0 <= K /\ lipschitz F K (fst (fst r)) (snd (fst r)) (fst (snd r)) (snd (snd r)).

Lemma mesh_total_sections s msize c sd :
  well_cut s -> (forall r, In r (rects s) -> tame s r) ->
  0 < c -> (forall p, exists m, msize p = Ok m /\ c <= m) ->
  exists N out, forall fuel, (N <= fuel)%nat -> mesh_surface fuel s msize sd = Ok out.
Proof.
  intros Hw HF Hc Hms. destruct (rects_spec s Hw) as (P1 & _ & P3 & _).
  assert (HN : exists N, forall r, In r (rects s) -> forall fuel, (N <= fuel)%nat -> exists out,
     section_quads fuel (decide_split msize) sd (index_to_point (rsection s r)) = Ok out).
  { revert HF P1. generalize (rects s). induction l as [|r rs IH]; intros HF P1.
    - exists 0%nat. intros r [].
    - inversion P1 as [|? ? (A1 & A2) P1']; subst.
      destruct (IH (fun r' Hr' => HF r' (or_intror Hr')) P1') as (N & HN).
      destruct (HF r (or_introl eq_refl)) as (F & K & HT & HK & HL).
      destruct (section_ends s F r msize K c) with (sd := sd) as (M & HM); try assumption; try lra.
      exists (N + M)%nat. intros r' [<-|Hr'] fuel Hf; [apply HM; lia|apply HN; [exact Hr'|lia]]. }
  destruct HN as (N & HN).
  pose proof (mesher_spec N (decide_split msize) sd (length (sbps1 s) + 1) (length (sbps2 s) + 1) (evals s)
     (fun depth pts ms => Forall (vals (fun k => (k < length pts)%nat) (2 ^ depth)) ms) (evals_compatible s) (evals_len s)) as G.
  destruct (MesherRun.mapM_total (section_quads N (decide_split msize) sd) (fun _ _ => True) (evals s)) as (qss & EQ & _).
  { rewrite evals_rects. apply Forall_map, Forall_forall. intros r Hr. destruct (HN r Hr N (Nat.le_refl N)) as (out & E). exists out. auto. }
  rewrite EQ in G. destruct G as (pts & tris & depth & ms & kss & E & _).
  - intros depth pts ms H.
    destruct (stitch_total (evals s) (fun k => (k < length pts)%nat) (2 ^ depth) (length (sbps1 s) + 1) (length (sbps2 s) + 1) ms (evals_len s))
      as (ms' & A & B & C).
    + eapply Forall2_impl_all; [|exact H]. intros e m. apply ok_vals.
    + exists ms'. split; [exact A|]. split; [|exact C]. eapply Forall2_right; [|exact B]. auto.
  - auto.
  - exists N. eexists. intros fuel Hf. eapply mesher_mono; [exact Hf|exact E].
Qed.

Definition total_on (s : surface) (F : R -> R -> vec3) : Prop :=
  forall u v, 0 <= u <= slen1 s -> 0 <= v <= slen2 s -> sfun s u v = Ok (F u v).
Lemma mesh_total s F msize K c sd :
  well_cut s -> total_on s F -> 0 <= K -> lipschitz F K 0 (slen1 s) 0 (slen2 s) ->
  0 < c -> (forall p, exists m, msize p = Ok m /\ c <= m) ->
  exists N out, forall fuel, (N <= fuel)%nat -> mesh_surface fuel s msize sd = Ok out.
Proof.
  intros Hw HF HK (L1 & L2) Hc Hms. destruct (rects_spec s Hw) as (_ & _ & P3 & _). rewrite Forall_forall in P3.
  apply (mesh_total_sections s msize c sd Hw); try assumption. intros r Hr. destruct (P3 r Hr) as (B1 & B2 & B3 & B4).
  exists F, K. split; [intros u v Hu Hv; apply HF; lra|]. split; [exact HK|].
  split; [intros; apply L1; lra|intros; apply L2; lra].
Qed.
