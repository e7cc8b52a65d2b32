(** Every triangle lies in a parameter cell that needs no further division. *)
From Coq Require Import Reals Lra Psatz Sorted.
From Verif Require Import Base BaseFacts Vec GeomModel GeomFacts QuadModel KronrodFacts SurfaceModel
  MesherModel MesherFacts MesherRun MesherSpec MesherTile MesherTri MesherSurf MesherEnd MesherWhole.
Local Open Scope R_scope.

Lemma split_none q h v : split q h v = None -> h = false /\ v = false.
Proof. destruct h, v; intros H; try discriminate; auto. Qed.
Lemma refine_done fuel dec : forall todo quads out, refine fuel dec todo quads = Ok out ->
  Forall (fun q => dec q = Ok (false, false)) quads -> Forall (fun q => dec q = Ok (false, false)) out.
Proof.
  induction fuel as [|fuel IH]; intros todo quads out H HQ; destruct todo as [|q rest]; cbn [refine] in H; try discriminate; try (injection H as <-; exact HQ).
  apply bind_ok in H. destruct H as ((h, v) & Hd & H). destruct (split q h v) as [cs|] eqn:Es.
  - eapply IH; eassumption.
  - apply split_none in Es. destruct Es as (-> & ->). eapply IH; [exact H|]. apply Forall_app. split; [exact HQ|]. constructor; [exact Hd|constructor].
Qed.
Lemma refine_all_done fuel dec : forall starts quads out, refine_all fuel dec starts quads = Ok out ->
  Forall (fun q => dec q = Ok (false, false)) quads -> Forall (fun q => dec q = Ok (false, false)) out.
Proof.
  induction starts as [|q rest IH]; intros quads out H HQ; cbn [refine_all] in H; [injection H as <-; exact HQ|].
  apply bind_ok in H. destruct H as (qs & H1 & H). eapply IH; [exact H|]. eapply refine_done; eassumption.
Qed.

Lemma cu_scale r depth d i : (d <= depth)%nat -> cu r depth (2 ^ (depth - d) * i) = cu r d i.
Proof.
  intros H. unfold cu. rewrite mult_INR, INR_pow. unfold pw. replace (2 ^ depth) with (2 ^ (depth - d) * 2 ^ d).
  - pose proof (pw_pos (depth - d)). pose proof (pw_pos d). unfold pw in *. field. split; lra.
  - rewrite <- pow_add. f_equal. lia.
Qed.
Lemma cv_scale r depth d j : (d <= depth)%nat -> cv r depth (2 ^ (depth - d) * j) = cv r d j.
Proof. intros H. exact (cu_scale (snd r, fst r) depth d j H). Qed.

(** a cell of parameters whose sides are no longer than the mesh size [m] at its centre, and not
    more than 5/2 as long as the other sides unless they are short *)
Record fine_cell (s : surface) (msize : vec3 -> result R) (u0 u1 v0 v1 : R) : Prop := mkfine {
  fc_order : u0 < u1 /\ v0 < v1;
  fc_sides : exists p1 p2 p3 p4 m,
    sfun s u0 v0 = Ok p1 /\ sfun s u0 v1 = Ok p2 /\ sfun s u1 v0 = Ok p3 /\ sfun s u1 v1 = Ok p4 /\
    msize (vscale (/4) (vadd (vadd (vadd p1 p2) p3) p4)) = Ok m /\
    dist3 p1 p2 <= m /\ dist3 p3 p4 <= m /\ dist3 p1 p3 <= m /\ dist3 p2 p4 <= m /\
    (Rmax (dist3 p1 p2) (dist3 p3 p4) <= 5/2 * Rmax (dist3 p1 p3) (dist3 p2 p4) \/ Rmax (dist3 p1 p2) (dist3 p3 p4) <= m / 8) /\
    (Rmax (dist3 p1 p3) (dist3 p2 p4) <= 5/2 * Rmax (dist3 p1 p2) (dist3 p3 p4) \/ Rmax (dist3 p1 p3) (dist3 p2 p4) <= m / 8) }.

Lemma done_fine s msize r q : rect_pos r -> wfq q ->
  decision (index_to_point (rsection s r)) (decide_split msize) q = Ok (false, false) ->
  fine_cell s msize (cu r (qd q) (qi0 q)) (cu r (qd q) (qi1 q)) (cv r (qd q) (qj0 q)) (cv r (qd q) (qj1 q)).
Proof.
  intros (Hu & Hv) (W1 & _ & W3 & _) H. unfold decision in H. rewrite !section_param in H.
  apply bind_ok in H. destruct H as (p1 & E1 & H). apply bind_ok in H. destruct H as (p2 & E2 & H).
  apply bind_ok in H. destruct H as (p3 & E3 & H). apply bind_ok in H. destruct H as (p4 & E4 & H).
  unfold decide_split in H. apply bind_ok in H. destruct H as (m & Em & H). injection H as H1 H2.
  apply too_long_false in H1, H2. unfold horizontal, vertical in *.
  apply lt_INR in W1, W3. pose proof (pw_pos (qd q)) as Hp.
  split.
  - unfold cu, cv.
    assert (0 < (snd (fst r) - fst (fst r)) / pw (qd q)) by (apply Rdiv_lt_0_compat; lra).
    assert (0 < (snd (snd r) - fst (snd r)) / pw (qd q)) by (apply Rdiv_lt_0_compat; lra). split; nra.
  - exists p1, p2, p3, p4, m. do 4 (split; [assumption|]). split; [exact Em|].
    pose proof (Rmax_l (dist3 p1 p2) (dist3 p3 p4)). pose proof (Rmax_r (dist3 p1 p2) (dist3 p3 p4)).
    pose proof (Rmax_l (dist3 p1 p3) (dist3 p2 p4)). pose proof (Rmax_r (dist3 p1 p3) (dist3 p2 p4)).
    do 4 (split; [lra|]). destruct H1 as (_ & H1), H2 as (_ & H2). split; [destruct H1; [left|right]|destruct H2; [left|right]]; lra.
Qed.

Lemma Forall2_in_r {A B} (R : A -> B -> Prop) la lb b : Forall2 R la lb -> In b lb -> exists a, In a la /\ R a b.
Proof.
  induction 1 as [|x y la lb H _ IH]; intros Hin; [destruct Hin|]. destruct Hin as [<-|Hin].
  - exists x. split; [left; reflexivity|exact H].
  - destruct (IH Hin) as (a & A1 & A2). exists a. split; [right; exact A1|exact A2].
Qed.

Lemma mesh_fine fuel s msize sd pts tris info :
  well_cut s -> sbps1 s = [] \/ sbps2 s = [] ->
  mesh_surface fuel s msize sd = Ok ((pts, tris), info) ->
  forall k, In k tris -> exists t u0 u1 v0 v1,
    tri_on (sfun s) Ok pts t k /\ inside u0 u1 v0 v1 [t] /\ fine_cell s msize u0 u1 v0 v1.
Proof.
  intros Hw Hone H k Hk. unfold mesh_surface in H. fold (evals s) in H.
  pose proof (mesher_spec fuel (decide_split msize) sd (length (sbps1 s) + 1) (length (sbps2 s) + 1) (evals s)
     (fun depth pts ms => maps_right s depth pts ms /\ edges_shared s depth ms)
     (evals_compatible s) (evals_len s) (one_direction s Hone)) as G.
  assert (HV : forall depth pts ms, maps_right s depth pts ms /\ edges_shared s depth ms ->
     Forall (vals (fun k => (k < length pts)%nat) (2 ^ depth)) ms).
  { intros d p m (HR & _). apply maps_right_ok in HR. eapply Forall2_right; [|exact HR]. intros e x. apply ok_vals. }
  specialize (G HV). clear HV.
  destruct (mapM (section_quads fuel (decide_split msize) sd) (evals s)) as [qss0|e] eqn:EQ; [|rewrite G in H; discriminate].
  destruct G as (pts' & tris' & depth & ms & kss & EM & Hwf & (HR & _) & Hat & Htris & Hres).
  rewrite EM in H. injection H as <- <- <-. subst tris'.
  destruct (rects_spec s Hw) as (P1 & _).
  apply mapM_ok in EQ. rewrite evals_rects in EQ. apply Forall2_map_l in EQ.
  clear EM Hw Hone. unfold maps_right in HR. revert qss0 ms kss HR Hat Hres EQ Hwf P1 Hk.
  generalize (rects s). intros rs. induction rs as [|r rs IH]; intros qss0 ms kss HR Hat Hres EQ Hwf P1 Hk.
  - inversion EQ; subst. inversion HR; subst. cbn [map combine] in Hres. inversion Hres; subst. destruct Hk.
  - inversion EQ as [|? qs0 ? qss0' Q1 Q2]; subst. inversion HR as [|? m ? ms' R1 R2]; subst.
    cbn [map combine] in Hres, Hat. inversion Hres as [|? ks ? kss' S1 S2]; subst. inversion Hat as [|? ? ? ? A1 A2]; subst.
    inversion Hwf as [|? ? W1 W2]; subst. inversion P1 as [|? ? X1 X2]; subst.
    cbn [concat] in Hk. apply in_app_or in Hk. destruct Hk as [Hk|Hk]; [|eapply IH; eassumption]. clear IH.
    destruct S1 as (tss & E & Ht). cbn [fst snd] in *. destruct (Forall2_in_r _ _ _ _ Ht Hk) as (t & Hint & His).
    apply in_concat in Hint. destruct Hint as (ts & Hts & Hint). apply mapM_ok in E.
    destruct (Forall2_in_r _ _ _ _ E Hts) as (q & Hq & Eq). apply in_map_iff in Hq. destruct Hq as (q0 & <- & Hq0).
    rewrite Forall_forall in W1. destruct (W1 q0 Hq0) as (Wq & Hd).
    assert (Hdone := refine_all_done _ _ _ _ _ Q1 (Forall_nil _)). rewrite Forall_forall in Hdone. specialize (Hdone q0 Hq0).
    pose proof (done_fine s msize r q0 X1 Wq Hdone) as Hfine.
    destruct (scale_wf depth q0 Wq Hd) as (Ws & Es).
    destruct (quad_triangles_tiles depth m _ ts Ws Eq) as (_ & _ & _ & CL & _).
    eexists (tri_param (fst (fst r)) (snd (fst r)) (fst (snd r)) (snd (snd r)) depth t), _, _, _, _.
    split; [eapply right_tri; [exact R1|exact His]|]. split; [|exact Hfine].
    constructor; [|constructor]. intros p Hp. destruct X1 as (Hu & Hv).
    destruct (param_surj (fst (fst r)) (snd (fst r)) (fst (snd r)) (snd (snd r)) depth Hu Hv p) as (g & ->).
    apply param_closed in Hp; [|exact Hu|exact Hv]. apply (CL (gt t) g (in_map gt _ _ Hint)) in Hp. destruct Hp as ((G1 & G2) & G3 & G4).
    cbn [scale_quad qi0 qi1 qj0 qj1] in G1, G2, G3, G4.
    rewrite <- (cu_scale r depth _ (qi0 q0) Hd), <- (cu_scale r depth _ (qi1 q0) Hd), <- (cv_scale r depth _ (qj0 q0) Hd), <- (cv_scale r depth _ (qj1 q0) Hd).
    unfold to_param, cu, cv. cbn [fst snd]. pose proof (pw_pos depth) as Hpw.
    assert (0 < (snd (fst r) - fst (fst r)) / pw depth) by (apply Rdiv_lt_0_compat; lra).
    assert (0 < (snd (snd r) - fst (snd r)) / pw depth) by (apply Rdiv_lt_0_compat; lra).
    split; split; apply Rplus_le_compat_l; apply Rmult_le_compat_l; lra.
Qed.
