(** The whole run of the mesher: it succeeds whenever the subdivision ends, every index refers
    to the right point, and all corners are present. For any type of points. *)
From Verif Require Import Base BaseFacts MesherModel MesherFacts.
Local Open Scope nat_scope.

Lemma refine_nonempty dec fuel : forall todo quads out,
  refine fuel dec todo quads = Ok out -> todo <> [] \/ quads <> [] -> out <> [].
Proof.
  induction fuel as [|fuel IH]; intros todo quads out H Hne; destruct todo as [|q rest]; cbn [refine] in H.
  - injection H as <-. destruct Hne as [Hne|Hne]; [congruence|exact Hne].
  - discriminate.
  - injection H as <-. destruct Hne as [Hne|Hne]; [congruence|exact Hne].
  - destruct (dec q) as [(h, v)|e]; [|discriminate]. cbn [bind] in H.
    destruct (split q h v) as [children|] eqn:Es.
    + apply IH in H; [exact H|]. left. destruct h, v; cbn [split] in Es; try discriminate; injection Es as <-; discriminate.
    + apply IH in H; [exact H|]. right. destruct quads; discriminate.
Qed.
Lemma refine_all_nonempty dec fuel : forall starts quads out,
  refine_all fuel dec starts quads = Ok out -> starts <> [] \/ quads <> [] -> out <> [].
Proof.
  induction starts as [|q rest IH]; intros quads out H Hne; cbn [refine_all] in H.
  - injection H as <-. destruct Hne as [Hne|Hne]; [congruence|exact Hne].
  - apply bind_ok in H. destruct H as (q1 & H1 & H). apply IH in H; [exact H|]. right.
    eapply refine_nonempty; [exact H1|]. left; discriminate.
Qed.
Lemma start_nonempty sd : start_quads sd <> [].
Proof.
  unfold start_quads, number_of_indices. rewrite Nat.add_sub.
  assert (E : 2 ^ sd <> 0) by (apply Nat.pow_nonzero; lia). destruct (2 ^ sd) as [|n]; [congruence|].
  cbn [seq flat_map map app]. discriminate.
Qed.

Section Run.
  Context {P : Type}.
  Implicit Types (eval : nat -> nat -> nat -> result P) (pts : list P).

  Definition section_quads fuel decide sd eval : result (list quad) :=
    refine_all fuel (decision eval decide) (start_quads sd) [].

  Lemma mesh_sections_spec fuel decide sd : forall evals pts,
    Forall compatible evals ->
    match mapM (section_quads fuel decide sd) evals with
    | Ok qss => exists points stacks, mesh_sections fuel decide sd pts evals = Ok (points, stacks) /\
        (exists t, points = pts ++ t) /\ map snd stacks = qss /\
        Forall2 (fun eval s => ok_maps eval points (fst s) /\ Forall (good_quad sd (fst s)) (snd s)) evals stacks
    | Err e => mesh_sections fuel decide sd pts evals = Err e
    end.
  Proof.
    induction evals as [|eval rest IH]; intros pts Hc; cbn [mapM mesh_sections].
    - exists pts, []. split; [reflexivity|]. split; [exists []; rewrite app_nil_r; reflexivity|]. split; [reflexivity|constructor].
    - inversion Hc as [|? ? Hc0 Hc']; subst. unfold section_quads at 1.
      pose proof (subdivide_all_spec eval decide sd fuel Hc0 (start_quads sd) (mkps pts []) []) as G.
      assert (Hok0 : ok_maps eval (ps_points (mkps pts [])) (ps_maps (mkps pts []))) by (intros d m Hm; destruct d; discriminate).
      specialize (G Hok0 (start_wf sd) (Forall_nil _)).
      destruct (refine_all fuel (decision eval decide) (start_quads sd) []) as [quads|e]; [|rewrite G; reflexivity].
      destruct G as (st & -> & Hok & ((t & Ht) & _) & Hq). cbn [bind ps_points] in *.
      specialize (IH (ps_points st) Hc').
      destruct (mapM (section_quads fuel decide sd) rest) as [qss|e]; [|rewrite IH; reflexivity].
      destruct IH as (points & stacks & -> & (t' & Ht') & Hs & HF). cbn [bind].
      exists points, ((ps_maps st, quads) :: stacks). split; [reflexivity|].
      split; [exists (t ++ t'); rewrite Ht', Ht, app_assoc; reflexivity|].
      split; [cbn [map snd]; rewrite Hs; reflexivity|].
      constructor; [|exact HF]. cbn [fst snd]. split; [|exact Hq]. rewrite Ht'. apply ok_maps_app, Hok.
  Qed.

  (** normalisation *)
  Lemma copy_down_spec eval pts maps d :
    compatible eval -> ok_maps eval pts maps -> S d < length maps ->
    exists maps', copy_down maps d = Ok maps' /\ length maps' = length maps /\
      ok_maps eval pts maps' /\ sub_maps maps maps' /\
      (forall i j, has maps d i j -> has maps' (S d) (2 * i) (2 * j)).
  Proof.
    intros Hc Hok Hl. unfold copy_down, np_get.
    destruct (nth_error maps d) as [a|] eqn:Ha; [|apply nth_error_None in Ha; lia].
    destruct (nth_error maps (S d)) as [b|] eqn:Hb; [|apply nth_error_None in Hb; lia]. cbn [bind].
    eexists; split; [reflexivity|]. split; [apply upd_len|]. split; [|split].
    - intros d' m Hm. rewrite nth_error_upd in Hm. destruct (Nat.eqb_spec (S d) d') as [<-|Hne]; [|apply Hok, Hm].
      destruct (Nat.ltb_spec (S d) (length maps)); [|lia]. injection Hm as <-. intros i j k Hk.
      destruct (coarse a i j) as [k'|] eqn:Ec; cbn [over] in Hk.
      + injection Hk as <-. apply (ok_map_coarse eval pts d a Hc (Hok _ _ Ha) i j k' Ec).
      + apply (Hok _ _ Hb i j k Hk).
    - intros d' m Hm. rewrite nth_error_upd. destruct (Nat.eqb_spec (S d) d') as [<-|Hne].
      + destruct (Nat.ltb_spec (S d) (length maps)); [|lia]. eexists; split; [reflexivity|].
        rewrite Hb in Hm. injection Hm as <-. intros i j k Hk. rewrite Hk.
        destruct (coarse a i j) as [k'|]; cbn [over]; eexists; reflexivity.
      + exists m; split; [exact Hm|apply sub_map_refl].
    - intros i j (m & k & Hm & Hk). rewrite Ha in Hm. injection Hm as <-.
      eexists _, k. rewrite nth_error_upd, Nat.eqb_refl. destruct (Nat.ltb_spec (S d) (length maps)); [|lia].
      split; [reflexivity|]. cbv beta. rewrite coarse_double, Hk. reflexivity.
  Qed.

  Lemma copy_all_spec eval pts : compatible eval -> forall n s maps,
    ok_maps eval pts maps -> s + n + 1 = length maps ->
    exists maps', copy_all maps (seq s n) = Ok maps' /\ length maps' = length maps /\
      ok_maps eval pts maps' /\
      (forall d i j, s <= d -> d <= s + n -> has maps d i j ->
         has maps' (s + n) (2 ^ (s + n - d) * i) (2 ^ (s + n - d) * j)).
  Proof.
    intros Hc. induction n as [|n IH]; intros s maps Hok Hl; cbn [seq copy_all].
    - exists maps. split; [reflexivity|]. split; [reflexivity|]. split; [exact Hok|]. intros d i j H1 H2 H.
      replace (s + 0 - d) with 0 by lia. cbn [Nat.pow]. rewrite !Nat.mul_1_l. replace (s + 0) with d by lia. exact H.
    - destruct (copy_down_spec eval pts maps s Hc Hok ltac:(lia)) as (m1 & -> & Hl1 & Hok1 & Hsub & Hup). cbn [bind].
      destruct (IH (S s) m1 Hok1 ltac:(lia)) as (m2 & R & Hl2 & Hok2 & Hhas). exists m2.
      split; [exact R|]. split; [lia|]. split; [exact Hok2|]. intros d i j H1 H2 H.
      replace (s + S n) with (S s + n) in * by lia.
      destruct (Nat.eq_dec d s) as [->|Hne].
      + apply Hup in H. apply (Hhas (S s)) in H; [|lia|lia].
        replace (S s + n - s) with (S (S s + n - S s)) by lia. cbn [Nat.pow].
        replace (2 * 2 ^ (S s + n - S s) * i) with (2 ^ (S s + n - S s) * (2 * i)) by ring.
        replace (2 * 2 ^ (S s + n - S s) * j) with (2 ^ (S s + n - S s) * (2 * j)) by ring. exact H.
      + apply (Hhas d); [lia|lia|]. eapply has_sub; [exact Hsub|exact H].
  Qed.

  (** a quad at the final depth, all of whose corners have an index *)
  Definition at_depth depth (m : index_map) (q : quad) : Prop :=
    qd q = depth /\ wfq q /\
    m (qi0 q) (qj0 q) <> None /\ m (qi0 q) (qj1 q) <> None /\ m (qi1 q) (qj0 q) <> None /\ m (qi1 q) (qj1 q) <> None.
  Lemma at_depth_sub depth m m' q : sub_map m m' -> at_depth depth m q -> at_depth depth m' q.
  Proof.
    assert (X : forall i j, sub_map m m' -> m i j <> None -> m' i j <> None).
    { intros i j Hs Hn. destruct (m i j) as [k|] eqn:E; [|congruence]. destruct (Hs _ _ _ E) as (k' & ->). discriminate. }
    intros Hs (A & B & C & D & E & F). repeat split; auto; apply B.
  Qed.

  Lemma scale_wf depth q : wfq q -> qd q <= depth -> wfq (scale_quad depth q) /\ qd (scale_quad depth q) = depth.
  Proof.
    intros (A & B & C & D) Hd. unfold scale_quad, wfq. cbn [qd qi0 qi1 qj0 qj1].
    replace (Nat.max depth (qd q)) with depth by lia.
    set (f := 2 ^ (depth - qd q)).
    assert (Hf : f <> 0) by (apply Nat.pow_nonzero; lia).
    assert (E : 2 ^ depth = f * 2 ^ qd q) by (unfold f; rewrite <- Nat.pow_add_r; f_equal; lia).
    rewrite E. repeat split; nia.
  Qed.

  Lemma normalize_spec eval pts depth sd maps quads :
    compatible eval -> ok_maps eval pts maps -> length maps <= S depth ->
    Forall (good_quad sd maps) quads -> quads <> [] ->
    exists m, normalize depth sd maps quads = Ok (m, map (scale_quad depth) quads) /\
      ok_map eval pts depth m /\ Forall (at_depth depth m) (map (scale_quad depth) quads).
  Proof.
    intros Hc Hok Hl Hq Hne. unfold normalize.
    set (maps1 := ensure_levels (S depth) maps).
    assert (Hl1 : length maps1 = S depth) by (unfold maps1; rewrite ensure_len; lia).
    rewrite Hl1, Nat.eqb_refl. cbn [py_assert bind].
    assert (Hdq : forall q, In q quads -> qd q <= depth /\ sd <= qd q /\ wfq q /\ corners_in maps q).
    { intros q Hin. rewrite Forall_forall in Hq. destruct (Hq q Hin) as (A & B & C). repeat split; try apply A; auto; try apply C.
      destruct C as ((m & k & Hm & _) & _). assert (qd q < length maps) by (apply nth_error_Some; congruence). lia. }
    assert (Hsd : sd <= depth).
    { destruct quads as [|q rest]; [congruence|]. destruct (Hdq q (or_introl eq_refl)) as (A & B & _). lia. }
    replace (S depth - 1 - sd) with (depth - sd) by lia.
    destruct (copy_all_spec eval pts Hc (depth - sd) sd maps1) as (maps2 & -> & Hl2 & Hok2 & Hhas).
    { apply ok_ensure; assumption. } { lia. }
    cbn [bind].
    assert (Hscale : Forall (fun q => wfq q /\ qd q = depth) (map (scale_quad depth) quads)).
    { apply Forall_map, Forall_forall. intros q Hin. destruct (Hdq q Hin) as (A & B & C & _). apply scale_wf; assumption. }
    assert (A1 : forallb (fun q => qi0 q <? number_of_indices depth) (map (scale_quad depth) quads) = true).
    { apply forallb_forall. intros q Hin. rewrite Forall_forall in Hscale. destruct (Hscale q Hin) as ((X & Y & _) & Z).
      rewrite Z in Y. apply Nat.ltb_lt. unfold number_of_indices. lia. }
    rewrite A1. cbn [py_assert bind].
    assert (A2 : exists q0, np_get (map (scale_quad depth) quads) 0 = Ok q0 /\ qd q0 = depth).
    { destruct quads as [|q rest]; [congruence|]. exists (scale_quad depth q). split; [reflexivity|].
      inversion Hscale; subst. tauto. }
    destruct A2 as (q0 & -> & Hq0). cbn [bind].
    assert (A3 : forallb (fun q => qd q =? qd q0) (map (scale_quad depth) quads) = true).
    { apply forallb_forall. intros q Hin. rewrite Forall_forall in Hscale. destruct (Hscale q Hin) as (_ & Z).
      apply Nat.eqb_eq. congruence. }
    rewrite A3. cbn [py_assert bind].
    assert (Hlast : nth_error maps2 depth = Some (last maps2 empty_map)).
    { replace depth with (length maps2 - 1) at 1 by lia. apply last_nth. destruct maps2; [cbn [length] in *; lia|discriminate]. }
    exists (last maps2 empty_map). split; [reflexivity|]. split; [apply Hok2; exact Hlast|].
    apply Forall_map, Forall_forall. intros q Hin. destruct (Hdq q Hin) as (A & B & C & D).
    pose proof (scale_wf depth q C A) as (W & E).
    assert (Hp : forall i j, has maps (qd q) i j -> last maps2 empty_map (2 ^ (depth - qd q) * i) (2 ^ (depth - qd q) * j) <> None).
    { intros i j H. apply (has_sub _ maps1) in H; [|apply sub_ensure].
      apply (Hhas (qd q)) in H; [|lia|lia]. replace (sd + (depth - sd)) with depth in H by lia.
      destruct H as (m & k & Hm & Hk). rewrite Hlast in Hm. injection Hm as <-. rewrite Hk. discriminate. }
    unfold at_depth. split; [exact E|]. split; [exact W|].
    destruct D as (D1 & D2 & D3 & D4). cbn [scale_quad qi0 qi1 qj0 qj1]. repeat split; apply Hp; assumption.
  Qed.

  (** triangles of one section *)
  Definition in_grid depth (p : pos) : Prop := fst p <= 2 ^ depth /\ snd p <= 2 ^ depth.
  Definition pos_ok depth (m : index_map) (p : pos) : Prop := in_grid depth p /\ m (fst p) (snd p) <> None.
  Definition tri_ok depth m (t : tri_pos) : Prop :=
    pos_ok depth m (fst (fst t)) /\ pos_ok depth m (snd (fst t)) /\ pos_ok depth m (snd t).
  Lemma split_edges_ok depth m n : forall p0 p1 p2 p3,
    pos_ok depth m p0 -> pos_ok depth m p1 -> pos_ok depth m p2 -> pos_ok depth m p3 ->
    exists ts, split_edges n depth m p0 p1 p2 p3 = Ok ts /\ Forall (tri_ok depth m) ts.
  Proof.
    induction n as [|n IH]; intros p0 p1 p2 p3 H0 H1 H2 H3; cbn [split_edges].
    - eexists; split; [reflexivity|]. repeat constructor; cbn [fst snd]; try apply H0; try apply H1; try apply H2; try apply H3.
    - set (e := ((fst p0 + fst p1) / 2, (snd p0 + snd p1) / 2)).
      assert (He : in_grid depth e).
      { destruct H0 as ((A & B) & _), H1 as ((C & D) & _). split; cbn [e fst snd]; apply Nat.div_le_upper_bound; lia. }
      destruct (_ || _).
      + unfold present. rewrite read_map_in by apply He. cbn [bind].
        destruct (m (fst e) (snd e)) as [k|] eqn:Ek.
        * eexists; split; [reflexivity|].
          assert (Hpe : pos_ok depth m e) by (split; [exact He|congruence]).
          repeat constructor; cbn [fst snd]; try apply H0; try apply H1; try apply H2; try apply H3; try apply Hpe.
        * apply IH; assumption.
      + cbn [bind]. apply IH; assumption.
  Qed.
  Lemma quad_triangles_ok depth m q : at_depth depth m q ->
    exists ts, quad_triangles depth m q = Ok ts /\ Forall (tri_ok depth m) ts.
  Proof.
    intros (A & (W1 & W2 & W3 & W4) & B & C & D & E). rewrite A in W2, W4.
    apply split_edges_ok; (split; [split; cbn [fst snd]; lia|assumption]).
  Qed.
  Definition pos_is (m : index_map) (p : pos) (k : nat) : Prop := m (fst p) (snd p) = Some k.
  Definition tri_is (m : index_map) (t : tri_pos) (k : nat * nat * nat) : Prop :=
    pos_is m (fst (fst t)) (fst (fst k)) /\ pos_is m (snd (fst t)) (snd (fst k)) /\ pos_is m (snd t) (snd k).
  Lemma pos_index_ok depth m p : pos_ok depth m p -> exists k, pos_index depth m p = Ok k /\ pos_is m p k.
  Proof.
    intros ((A & B) & C). unfold pos_index, pos_is. rewrite read_map_in by assumption. cbn [bind].
    destruct (m (fst p) (snd p)) as [k|]; [|congruence]. exists k; split; reflexivity.
  Qed.
  Lemma mapM_total {A B} (f : A -> result B) (Q : A -> B -> Prop) l :
    Forall (fun a => exists b, f a = Ok b /\ Q a b) l -> exists bs, mapM f l = Ok bs /\ Forall2 Q l bs.
  Proof.
    induction 1 as [|a l (b & Hb & HQ) _ (bs & IH & HF)]; cbn [mapM].
    - exists []; split; [reflexivity|constructor].
    - rewrite Hb, IH. cbn [bind]. exists (b :: bs); split; [reflexivity|constructor; assumption].
  Qed.
  Lemma to_triangles_ok depth m quads : Forall (at_depth depth m) quads ->
    exists tss ks, mapM (quad_triangles depth m) quads = Ok tss /\
      to_triangles depth m quads = Ok ks /\ Forall2 (tri_is m) (concat tss) ks /\
      Forall (tri_ok depth m) (concat tss).
  Proof.
    intros H. unfold to_triangles.
    destruct (mapM_total (quad_triangles depth m) (fun _ ts => Forall (tri_ok depth m) ts) quads) as (tss & E & HF).
    { eapply Forall_impl; [|exact H]. intros q Hq. apply quad_triangles_ok, Hq. }
    assert (Hts : Forall (tri_ok depth m) (concat tss)).
    { apply Forall_concat. clear - HF. induction HF; constructor; auto. }
    destruct (mapM_total (tri_index depth m) (tri_is m) (concat tss)) as (ks & E2 & HF2).
    { eapply Forall_impl; [|exact Hts]. intros t (A & B & C).
      destruct (pos_index_ok _ _ _ A) as (a & Ha & Ia), (pos_index_ok _ _ _ B) as (b & Hb & Ib), (pos_index_ok _ _ _ C) as (c & Hc & Ic).
      exists (a, b, c). unfold tri_index. rewrite Ha, Hb, Hc. split; [reflexivity|repeat split; assumption]. }
    exists tss, ks. rewrite E. cbn [bind]. repeat split; assumption.
  Qed.

  (** gluing *)
  Lemma glue_all_app f ms l1 l2 : glue_all f ms (l1 ++ l2) = (ms' <- glue_all f ms l1 ;; glue_all f ms' l2).
  Proof.
    revert ms. induction l1 as [|(x, y) l1 IH]; intros ms; [reflexivity|]. cbn [app glue_all].
    destruct (glue f ms x y) as [ms'|e]; cbn [bind]; [apply IH|reflexivity].
  Qed.
  Definition glue_mono (f : index_map -> index_map -> index_map * index_map) : Prop :=
    forall a b, sub_map a (fst (f a b)) /\ sub_map b (snd (f a b)).
  Lemma over_some a b k : b = Some k -> exists k', over a b = Some k'.
  Proof. intros ->. destruct a as [k'|]; eexists; reflexivity. Qed.
  Lemma glue_u_mono n : glue_mono (glue_u n).
  Proof.
    intros a b. split; intros i j k H; cbn [glue_u fst snd].
    - destruct (Nat.eqb_spec i n) as [->|]; [|exists k; exact H]. apply over_some with (k := k), H.
    - destruct (Nat.eqb_spec i 0) as [->|]; [|exists k; exact H]. apply over_some with (k := k), H.
  Qed.
  Lemma glue_v_mono n : glue_mono (glue_v n).
  Proof.
    intros a b. split; intros i j k H; cbn [glue_v fst snd].
    - destruct (Nat.eqb_spec j n) as [->|]; [|exists k; exact H]. apply over_some with (k := k), H.
    - destruct (Nat.eqb_spec j 0) as [->|]; [|exists k; exact H]. apply over_some with (k := k), H.
  Qed.
  Lemma Forall2_upd {A B} (R : A -> B -> Prop) la lb x a b :
    Forall2 R la lb -> nth_error la x = Some a -> R a b -> Forall2 R la (upd lb x b).
  Proof.
    intros H. revert x. induction H as [|a0 b0 la lb H0 H IH]; intros [|x] Ha Hr; cbn [nth_error upd] in *; try discriminate.
    - injection Ha as <-. constructor; assumption.
    - constructor; [exact H0|apply IH; assumption].
  Qed.
  Lemma Forall2_sub_upd ms x a a' : nth_error ms x = Some a -> sub_map a a' -> Forall2 sub_map ms (upd ms x a').
  Proof.
    intros H Hs. eapply Forall2_upd; [|exact H|exact Hs]. apply Forall2_refl_all, sub_map_refl.
  Qed.
  Lemma Forall2_sub_trans a b c : Forall2 sub_map a b -> Forall2 sub_map b c -> Forall2 sub_map a c.
  Proof. apply Forall2_trans_all. intros x y z. apply sub_map_trans. Qed.

  Lemma glue_all_spec {A} (R : A -> index_map -> Prop) labels f :
    glue_mono f -> forall pairs ms,
    Forall2 R labels ms ->
    Forall (fun xy => fst xy <> snd xy /\ exists lx ly,
              nth_error labels (fst xy) = Some lx /\ nth_error labels (snd xy) = Some ly /\
              (forall a b, R lx a -> R ly b -> R lx (fst (f a b)) /\ R ly (snd (f a b)))) pairs ->
    exists ms', glue_all f ms pairs = Ok ms' /\ Forall2 R labels ms' /\ Forall2 sub_map ms ms'.
  Proof.
    intros Hf. induction pairs as [|(x, y) pairs IH]; intros ms HR Hp; cbn [glue_all].
    - exists ms. split; [reflexivity|]. split; [exact HR|]. apply Forall2_refl_all, sub_map_refl.
    - inversion Hp as [|? ? (Hxy & lx & ly & Hx & Hy & Hr) Hp']; subst. cbn [fst snd] in *.
      unfold glue.
      destruct (Forall2_nth_l _ _ _ _ _ HR Hx) as (a & Ha & Ra). destruct (Forall2_nth_l _ _ _ _ _ HR Hy) as (b & Hb & Rb).
      unfold np_get. rewrite Ha, Hb. cbn [bind]. destruct (Hr a b Ra Rb) as (R1 & R2). destruct (Hf a b) as (S1 & S2).
      destruct (f a b) as [a' b']. cbn [fst snd] in *.
      destruct (IH (upd (upd ms x a') y b')) as (ms' & E & HR' & Hs).
      { eapply Forall2_upd; [|exact Hy|exact R2]. eapply Forall2_upd; [exact HR|exact Hx|exact R1]. }
      { exact Hp'. }
      cbn [bind]. exists ms'. split; [exact E|]. split; [exact HR'|].
      eapply Forall2_sub_trans; [|exact Hs]. eapply Forall2_sub_trans; [apply (Forall2_sub_upd ms x a a' Ha S1)|].
      apply (Forall2_sub_upd _ y b b'); [|exact S2]. rewrite nth_error_upd_ne by congruence. exact Hb.
  Qed.

  (** the indices and positions that occur keep a property *)
  Definition vals (Q : nat -> Prop) n (m : index_map) : Prop :=
    forall i j k, m i j = Some k -> i <= n /\ j <= n /\ Q k.
  Lemma over_cases a b k : over a b = Some k -> a = Some k \/ b = Some k.
  Proof. destruct a as [k'|]; cbn [over]; auto. Qed.
  Lemma glue_u_vals Q n a b : vals Q n a -> vals Q n b ->
    vals Q n (fst (glue_u n a b)) /\ vals Q n (snd (glue_u n a b)).
  Proof.
    intros Ha Hb. split; intros i j k H; cbn [glue_u fst snd] in H.
    - destruct (Nat.eqb_spec i n) as [->|]; [|apply Ha, H].
      apply over_cases in H. destruct H as [H|H]; [apply Hb in H|apply Ha in H]; intuition lia.
    - destruct (Nat.eqb_spec i 0) as [->|]; [|apply Hb, H].
      apply over_cases in H. destruct H as [H|H]; [|apply Hb, H].
      apply over_cases in H. destruct H as [H|H]; [apply Hb in H|apply Ha in H]; intuition lia.
  Qed.
  Lemma glue_v_vals Q n a b : vals Q n a -> vals Q n b ->
    vals Q n (fst (glue_v n a b)) /\ vals Q n (snd (glue_v n a b)).
  Proof.
    intros Ha Hb. split; intros i j k H; cbn [glue_v fst snd] in H.
    - destruct (Nat.eqb_spec j n) as [->|]; [|apply Ha, H].
      apply over_cases in H. destruct H as [H|H]; [apply Hb in H|apply Ha in H]; intuition lia.
    - destruct (Nat.eqb_spec j 0) as [->|]; [|apply Hb, H].
      apply over_cases in H. destruct H as [H|H]; [|apply Hb, H].
      apply over_cases in H. destruct H as [H|H]; [apply Hb in H|apply Ha in H]; intuition lia.
  Qed.

  Lemma pairs_u_range Nx Ny x y : In (x, y) (pairs_u Nx Ny) -> x < Nx * Ny /\ y < Nx * Ny /\ y = x + 1.
  Proof.
    unfold pairs_u. intros H. apply in_flat_map in H. destruct H as (i & Hi & H). apply in_map_iff in H.
    destruct H as (j & E & Hj). apply in_seq in Hi, Hj. injection E as <- <-.
    assert (Hm : (j + 1) * Nx <= Ny * Nx) by (apply Nat.mul_le_mono_r; lia). rewrite (Nat.mul_comm Nx Ny). lia.
  Qed.
  Lemma pairs_v_range Nx Ny x y : In (x, y) (pairs_v Nx Ny) -> x < Nx * Ny /\ y < Nx * Ny /\ y = x + Nx /\ 0 < Nx.
  Proof.
    unfold pairs_v. intros H. apply in_flat_map in H. destruct H as (i & Hi & H). apply in_map_iff in H.
    destruct H as (j & E & Hj). apply in_seq in Hi, Hj. injection E as <- <-.
    assert (Hm : (j + 2) * Nx <= Ny * Nx) by (apply Nat.mul_le_mono_r; lia). rewrite (Nat.mul_comm Nx Ny). lia.
  Qed.

  (** Stitching never fails and never loses an index, whatever it identifies. *)
  Lemma stitch_total {A} (labels : list A) Q n Nx Ny ms :
    length labels = Nx * Ny -> Forall2 (fun _ m => vals Q n m) labels ms ->
    exists ms', stitch n Nx Ny ms = Ok ms' /\ Forall2 (fun _ m => vals Q n m) labels ms' /\ Forall2 sub_map ms ms'.
  Proof.
    intros Hl H. unfold stitch.
    destruct (glue_all_spec (fun _ m => vals Q n m) labels (glue_u n) (glue_u_mono n) (pairs_u Nx Ny) ms H) as (m1 & -> & H1 & S1).
    { apply Forall_forall. intros (x, y) Hin. apply pairs_u_range in Hin. destruct Hin as (A1 & A2 & A3). cbn [fst snd].
      split; [lia|]. destruct (nth_error_total labels x ltac:(lia)) as (lx & Hx), (nth_error_total labels y ltac:(lia)) as (ly & Hy).
      exists lx, ly. split; [exact Hx|]. split; [exact Hy|]. intros a b Ra Rb. apply glue_u_vals; assumption. }
    cbn [bind].
    destruct (glue_all_spec (fun _ m => vals Q n m) labels (glue_v n) (glue_v_mono n) (pairs_v Nx Ny) m1 H1) as (m2 & -> & H2 & S2).
    { apply Forall_forall. intros (x, y) Hin. apply pairs_v_range in Hin. destruct Hin as (A1 & A2 & A3 & A4). cbn [fst snd].
      split; [lia|]. destruct (nth_error_total labels x ltac:(lia)) as (lx & Hx), (nth_error_total labels y ltac:(lia)) as (ly & Hy).
      exists lx, ly. split; [exact Hx|]. split; [exact Hy|]. intros a b Ra Rb. apply glue_v_vals; assumption. }
    exists m2. split; [reflexivity|]. split; [exact H2|]. eapply Forall2_sub_trans; eassumption.
  Qed.

  (** when the two glued edges carry the same points, the maps stay right *)
  Lemma glue_u_ok (e1 e2 : nat -> nat -> nat -> result P) pts depth a b :
    (forall j, j <= 2 ^ depth -> e1 depth (2 ^ depth) j = e2 depth 0 j) ->
    ok_map e1 pts depth a -> ok_map e2 pts depth b ->
    ok_map e1 pts depth (fst (glue_u (2 ^ depth) a b)) /\ ok_map e2 pts depth (snd (glue_u (2 ^ depth) a b)).
  Proof.
    intros He Ha Hb. split; intros i j k H; cbn [glue_u fst snd] in H.
    - destruct (Nat.eqb_spec i (2 ^ depth)) as [->|]; [|apply Ha, H].
      apply over_cases in H. destruct H as [H|H]; [|apply Ha, H].
      apply Hb in H. destruct H as (_ & Hj & p & Hp & Hv). split; [lia|]. split; [exact Hj|].
      exists p; split; [exact Hp|]. rewrite He by exact Hj. exact Hv.
    - destruct (Nat.eqb_spec i 0) as [->|]; [|apply Hb, H].
      apply over_cases in H. destruct H as [H|H]; [|apply Hb, H].
      apply over_cases in H. destruct H as [H|H]; [apply Hb, H|].
      apply Ha in H. destruct H as (_ & Hj & p & Hp & Hv). split; [lia|]. split; [exact Hj|].
      exists p; split; [exact Hp|]. rewrite <- He by exact Hj. exact Hv.
  Qed.
  Lemma glue_v_ok (e1 e2 : nat -> nat -> nat -> result P) pts depth a b :
    (forall i, i <= 2 ^ depth -> e1 depth i (2 ^ depth) = e2 depth i 0) ->
    ok_map e1 pts depth a -> ok_map e2 pts depth b ->
    ok_map e1 pts depth (fst (glue_v (2 ^ depth) a b)) /\ ok_map e2 pts depth (snd (glue_v (2 ^ depth) a b)).
  Proof.
    intros He Ha Hb. split; intros i j k H; cbn [glue_v fst snd] in H.
    - destruct (Nat.eqb_spec j (2 ^ depth)) as [->|]; [|apply Ha, H].
      apply over_cases in H. destruct H as [H|H]; [|apply Ha, H].
      apply Hb in H. destruct H as (Hj & _ & p & Hp & Hv). split; [exact Hj|]. split; [lia|].
      exists p; split; [exact Hp|]. rewrite He by exact Hj. exact Hv.
    - destruct (Nat.eqb_spec j 0) as [->|]; [|apply Hb, H].
      apply over_cases in H. destruct H as [H|H]; [|apply Hb, H].
      apply over_cases in H. destruct H as [H|H]; [apply Hb, H|].
      apply Ha in H. destruct H as (Hj & _ & p & Hp & Hv). split; [exact Hj|]. split; [lia|].
      exists p; split; [exact Hp|]. rewrite <- He by exact Hj. exact Hv.
  Qed.

  Lemma list_max1_ge l x : In x l -> x <= list_max1 l.
  Proof. induction l as [|a l IH]; cbn [In list_max1 fold_right]; [tauto|]. intros [->|H]; [lia|]. apply IH in H. unfold list_max1 in H. lia. Qed.

  (** the whole run *)
  Definition section_result depth (m : index_map) (qs : list quad) (ks : list (nat * nat * nat)) : Prop :=
    exists tss, mapM (quad_triangles depth m) qs = Ok tss /\ Forall2 (tri_is m) (concat tss) ks.

  Lemma mesher_spec fuel decide sd Nx Ny evals
      (R : nat -> list P -> list index_map -> Prop) :
    Forall compatible evals -> length evals = Nx * Ny ->
    (forall depth pts ms, Forall2 (fun e m => ok_map e pts depth m) evals ms ->
       exists ms', stitch (2 ^ depth) Nx Ny ms = Ok ms' /\ R depth pts ms' /\ Forall2 sub_map ms ms') ->
    (forall depth pts ms, R depth pts ms -> Forall (vals (fun k => k < length pts) (2 ^ depth)) ms) ->
    match mapM (section_quads fuel decide sd) evals with
    | Err e => mesher fuel decide sd Nx Ny evals = Err e
    | Ok qss => exists points tris depth ms kss,
        mesher fuel decide sd Nx Ny evals = Ok ((points, tris), (depth, ms, map (map (scale_quad depth)) qss)) /\
        Forall (Forall (fun q => wfq q /\ qd q <= depth)) qss /\
        R depth points ms /\
        Forall2 (fun m qs => Forall (at_depth depth m) qs) ms (map (map (scale_quad depth)) qss) /\
        tris = concat kss /\
        Forall2 (fun mq ks => section_result depth (fst mq) (snd mq) ks)
                (combine ms (map (map (scale_quad depth)) qss)) kss
    end.
  Proof.
    intros Hc Hlen Hst HR. unfold mesher.
    pose proof (mesh_sections_spec fuel decide sd evals [] Hc) as G.
    destruct (mapM (section_quads fuel decide sd) evals) as [qss|e] eqn:Eq; [|rewrite G; reflexivity].
    destruct G as (points & stacks & -> & _ & Hsnd & HF). cbn [bind].
    remember (list_max1 (map (fun s => length (fst s)) stacks) - 1) as depth eqn:Ed.
    assert (Hne : Forall (fun qs => qs <> []) qss).
    { apply mapM_ok in Eq. clear - Eq. induction Eq as [|e qs le lq H _ IH]; constructor; [|exact IH].
      eapply refine_all_nonempty; [exact H|]. left. apply start_nonempty. }
    assert (Hdep : Forall (fun s => length (fst s) <= S depth) stacks).
    { apply Forall_forall. intros s Hin. apply (in_map (fun s => length (fst s))) in Hin.
      apply list_max1_ge in Hin. rewrite Ed. lia. }
    (* normalisation *)
    assert (HN : exists ms, mapM (fun s => normalize depth sd (fst s) (snd s)) stacks
                   = Ok (combine ms (map (map (scale_quad depth)) (map snd stacks))) /\
                 length ms = length stacks /\
                 Forall2 (fun e m => ok_map e points depth m) evals ms /\
                 Forall2 (fun m qs => Forall (at_depth depth m) qs) ms (map (map (scale_quad depth)) (map snd stacks)) /\
                 Forall (Forall (fun q => wfq q /\ qd q <= depth)) (map snd stacks)).
    { rewrite <- Hsnd in Hne. clear - HF Hc Hdep Hne. revert Hc Hdep Hne.
      induction HF as [|ev s evals stacks (Hok & Hq) HF IH]; intros Hc Hdep Hne; cbn [map mapM].
      - exists []. repeat split; constructor.
      - inversion Hc; subst. inversion Hdep; subst. cbn [map] in Hne. inversion Hne; subst.
        destruct (normalize_spec ev points depth sd (fst s) (snd s)) as (m & -> & Hm & Hat); try assumption.
        destruct IH as (ms & -> & L & A & B & C); try assumption. cbn [bind].
        exists (m :: ms). cbn [combine length]. split; [reflexivity|]. split; [lia|]. split; [constructor; assumption|].
        split; [constructor; assumption|]. constructor; [|exact C].
        apply Forall_forall. intros q Hin. rewrite Forall_forall in Hq. destruct (Hq q Hin) as (W & _ & (mm & k & Hmm & _) & _).
        split; [exact W|]. apply nth_error_lt in Hmm. lia. }
    destruct HN as (ms0 & -> & L & A & B & C). cbn [bind]. rewrite Hsnd in *.
    assert (Lq : length (map (map (scale_quad depth)) qss) = length stacks) by (rewrite <- Hsnd, !map_length; reflexivity).
    assert (Le : length evals = length stacks) by (eapply Forall2_length; exact HF).
    rewrite combine_length, L, Lq, Nat.min_id, <- Le, Hlen, Nat.eqb_refl. cbn [py_assert bind].
    assert (E1 : forall A B (la : list A) (lb : list B), length la = length lb -> map fst (combine la lb) = la /\ map snd (combine la lb) = lb).
    { clear. intros A B la. induction la as [|a la IH]; intros [|b lb] H; try discriminate; [split; reflexivity|].
      cbn [combine map fst snd]. destruct (IH lb ltac:(cbn in H; lia)) as (-> & ->). split; reflexivity. }
    destruct (E1 _ _ ms0 (map (map (scale_quad depth)) qss) ltac:(congruence)) as (-> & ->).
    destruct (Hst depth points ms0 A) as (ms & -> & HRm & Hsub). cbn [bind].
    assert (B' : Forall2 (fun m qs => Forall (at_depth depth m) qs) ms (map (map (scale_quad depth)) qss)).
    { clear - B Hsub. revert B. generalize (map (map (scale_quad depth)) qss). induction Hsub as [|a b la lb Hs _ IH]; intros l B.
      - inversion B; constructor.
      - inversion B as [|? qs ? l' Hq Hl]; subst. constructor; [|apply IH, Hl].
        eapply Forall_impl; [|exact Hq]. intros q. apply at_depth_sub, Hs. }
    destruct (mapM_total (fun mq => to_triangles depth (fst mq) (snd mq))
                (fun mq ks => section_result depth (fst mq) (snd mq) ks) (combine ms (map (map (scale_quad depth)) qss))) as (kss & -> & HK).
    { apply Forall_forall. intros (m, qs) Hin. cbn [fst snd].
      assert (Hat : Forall (at_depth depth m) qs).
      { clear - B' Hin. revert Hin. induction B' as [|a b la lb H _ IH]; cbn [combine In]; [tauto|].
        intros [E|Hin]; [injection E as <- <-; exact H|apply IH, Hin]. }
      destruct (to_triangles_ok depth m qs Hat) as (tss & ks & T1 & T2 & T3 & _).
      exists ks. split; [exact T2|]. exists tss; split; assumption. }
    cbn [bind].
    assert (Hin : forallb (fun t => (fst (fst t) <? length points) && (snd (fst t) <? length points) && (snd t <? length points)) (concat kss) = true).
    { apply forallb_forall. intros t Ht.
      assert (Hall : Forall (fun t => fst (fst t) < length points /\ snd (fst t) < length points /\ snd t < length points) (concat kss)).
      { apply Forall_concat. assert (HV : Forall (vals (fun k => k < length points) (2 ^ depth)) ms).
        { apply HR, HRm. }
        clear - HK HV. remember (combine ms (map (map (scale_quad depth)) qss)) as l eqn:El.
        assert (HVl : Forall (fun mq => vals (fun k => k < length points) (2 ^ depth) (fst mq)) l).
        { subst l. apply Forall_forall. intros (m, q) Hm. apply in_combine_l in Hm. rewrite Forall_forall in HV. apply HV, Hm. }
        clear El HV. induction HK as [|mq ks l kss (tss & _ & H) _ IH]; inversion HVl as [|? ? Hv Hvl]; subst; constructor; [|apply IH, Hvl].
        clear - H Hv. induction H as [|t k lt lk (X & Y & Z) _ IH]; constructor; [|exact IH].
        split; [apply (Hv _ _ _ X)|]. split; [apply (Hv _ _ _ Y)|apply (Hv _ _ _ Z)]. }
      rewrite Forall_forall in Hall. destruct (Hall t Ht) as (X & Y & Z).
      apply Nat.ltb_lt in X, Y, Z. rewrite X, Y, Z. reflexivity. }
    rewrite Hin. cbn [py_assert bind].
    exists points, (concat kss), depth, ms, kss. split; [reflexivity|]. split; [exact C|]. split; [exact HRm|].
    split; [exact B'|]. split; [reflexivity|exact HK].
  Qed.
End Run.
