(** Facts about the bookkeeping of the mesher, for any type of points. *)
From Verif Require Import Base MesherModel.
Local Open Scope nat_scope.

Definition grid_total {P} (eval : nat -> nat -> nat -> result P) : Prop :=
  forall d i j, i <= 2 ^ d -> j <= 2 ^ d -> exists p, eval d i j = Ok p.
(** the same position at the next depth *)
Definition compatible {P} (eval : nat -> nat -> nat -> result P) : Prop :=
  forall d i j, eval (S d) (2 * i) (2 * j) = eval d i j.

Definition wfq (q : quad) : Prop :=
  qi0 q < qi1 q /\ qi1 q <= 2 ^ qd q /\ qj0 q < qj1 q /\ qj1 q <= 2 ^ qd q.

Lemma nth_error_upd {A} (l : list A) i j x :
  nth_error (upd l i x) j = if i =? j then (if i <? length l then Some x else None) else nth_error l j.
Proof.
  revert i j. induction l as [|a l IH]; intros i j.
  - simpl. destruct (i =? j); destruct j; reflexivity.
  - destruct i as [|i], j as [|j]; simpl; try reflexivity.
    rewrite IH. destruct (i =? j); reflexivity.
Qed.
Lemma upd_len {A} (l : list A) i x : length (upd l i x) = length l.
Proof. revert i. induction l; intros [|i]; simpl; auto. Qed.

Lemma coarse_some m i j k : coarse m i j = Some k -> exists i' j', i = 2 * i' /\ j = 2 * j' /\ m i' j' = Some k.
Proof.
  unfold coarse. destruct (Nat.even i) eqn:Hi; [|discriminate]. destruct (Nat.even j) eqn:Hj; [|discriminate].
  simpl. intros H. exists (Nat.div2 i), (Nat.div2 j).
  pose proof (Nat.Even_double i (proj1 (Nat.even_spec i) Hi)) as Ei.
  pose proof (Nat.Even_double j (proj1 (Nat.even_spec j) Hj)) as Ej.
  unfold Nat.double in Ei, Ej. repeat split; [lia|lia|exact H].
Qed.
Lemma coarse_double m i j : coarse m (2 * i) (2 * j) = m i j.
Proof.
  unfold coarse.
  assert (E : forall n, Nat.even (2 * n) = true) by (intros n; apply Nat.even_spec; exists n; reflexivity).
  rewrite !E. cbn [andb]. rewrite !Nat.div2_double. reflexivity.
Qed.

Section Facts.
  Context {P : Type}.
  Implicit Types (eval : nat -> nat -> nat -> result P) (pts : list P) (st : pstack P).

  Definition ok_map eval pts d (m : index_map) : Prop :=
    forall i j k, m i j = Some k ->
      i <= 2 ^ d /\ j <= 2 ^ d /\ exists p, nth_error pts k = Some p /\ eval d i j = Ok p.
  Definition ok_maps eval pts (maps : list index_map) : Prop :=
    forall d m, nth_error maps d = Some m -> ok_map eval pts d m.
  Definition sub_map (m m' : index_map) : Prop := forall i j k, m i j = Some k -> exists k', m' i j = Some k'.
  Definition sub_maps (l l' : list index_map) : Prop :=
    forall d m, nth_error l d = Some m -> exists m', nth_error l' d = Some m' /\ sub_map m m'.
  Definition extends st st' : Prop :=
    (exists t, ps_points st' = ps_points st ++ t) /\ sub_maps (ps_maps st) (ps_maps st').
  Definition has (maps : list index_map) d i j : Prop :=
    exists m k, nth_error maps d = Some m /\ m i j = Some k.

  Lemma sub_map_refl m : sub_map m m.
  Proof. intros i j k H; exists k; exact H. Qed.
  Lemma sub_map_trans a b c : sub_map a b -> sub_map b c -> sub_map a c.
  Proof. intros H1 H2 i j k H. destruct (H1 _ _ _ H) as (k' & H'). apply (H2 _ _ _ H'). Qed.
  Lemma sub_maps_refl l : sub_maps l l.
  Proof. intros d m H; exists m; split; [exact H|apply sub_map_refl]. Qed.
  Lemma sub_maps_trans a b c : sub_maps a b -> sub_maps b c -> sub_maps a c.
  Proof.
    intros H1 H2 d m H. destruct (H1 _ _ H) as (m' & Hm' & S1). destruct (H2 _ _ Hm') as (m'' & Hm'' & S2).
    exists m''; split; [exact Hm''|eapply sub_map_trans; eassumption].
  Qed.
  Lemma extends_refl st : extends st st.
  Proof. split; [exists []; rewrite app_nil_r; reflexivity|apply sub_maps_refl]. Qed.
  Lemma extends_trans a b c : extends a b -> extends b c -> extends a c.
  Proof.
    intros ((t & Ht) & H1) ((u & Hu) & H2). split; [|eapply sub_maps_trans; eassumption].
    exists (t ++ u). rewrite Hu, Ht, app_assoc. reflexivity.
  Qed.
  Lemma has_sub l l' d i j : sub_maps l l' -> has l d i j -> has l' d i j.
  Proof.
    intros Hs (m & k & Hm & Hk). destruct (Hs _ _ Hm) as (m' & Hm' & S1). destruct (S1 _ _ _ Hk) as (k' & Hk').
    exists m', k'; split; assumption.
  Qed.

  Lemma ok_map_app eval pts t d m : ok_map eval pts d m -> ok_map eval (pts ++ t) d m.
  Proof.
    intros H i j k Hk. destruct (H i j k Hk) as (Hi & Hj & p & Hp & He). repeat split; [exact Hi|exact Hj|].
    exists p; split; [|exact He]. rewrite nth_error_app1; [exact Hp|]. apply nth_error_Some. congruence.
  Qed.
  Lemma ok_maps_app eval pts t l : ok_maps eval pts l -> ok_maps eval (pts ++ t) l.
  Proof. intros H d m Hm. apply ok_map_app, H, Hm. Qed.
  Lemma ok_map_coarse eval pts d m : compatible eval -> ok_map eval pts d m -> ok_map eval pts (S d) (coarse m).
  Proof.
    intros Hc H i j k Hk. apply coarse_some in Hk. destruct Hk as (i' & j' & -> & -> & Hk).
    destruct (H _ _ _ Hk) as (Hi & Hj & p & Hp & He). cbn [Nat.pow]. repeat split; [lia|lia|].
    exists p; split; [exact Hp|]. rewrite Hc. exact He.
  Qed.
  Lemma ok_map_empty eval pts d : ok_map eval pts d empty_map.
  Proof. intros i j k H; discriminate. Qed.

  Lemma last_nth {A} (l : list A) x : l <> [] -> nth_error l (length l - 1) = Some (last l x).
  Proof.
    induction l as [|a l IH]; [congruence|]. intros _. destruct l as [|b l]; [reflexivity|].
    cbn [length] in *. replace (S (S (length l)) - 1) with (S (S (length l) - 1)) by lia.
    cbn [nth_error]. rewrite IH by discriminate. reflexivity.
  Qed.
  Lemma ok_maps_add_level eval pts l : compatible eval -> ok_maps eval pts l -> ok_maps eval pts (add_level l).
  Proof.
    intros Hc H d m Hm. unfold add_level in Hm.
    destruct (Nat.lt_ge_cases d (length l)) as [Hd|Hd].
    - rewrite nth_error_app1 in Hm by exact Hd. apply H, Hm.
    - rewrite nth_error_app2 in Hm by exact Hd. destruct (d - length l) as [|n] eqn:En; [|destruct n; discriminate].
      injection Hm as <-. assert (d = length l) as -> by lia. unfold next_map. destruct l as [|a l].
      + apply ok_map_empty.
      + replace (length (a :: l)) with (S (length (a :: l) - 1)) by (cbn [length]; lia).
        apply ok_map_coarse; [exact Hc|]. apply H. apply last_nth. discriminate.
  Qed.
  Lemma ok_maps_add_levels eval pts n l : compatible eval -> ok_maps eval pts l -> ok_maps eval pts (add_levels n l).
  Proof. intros Hc. revert l. induction n as [|n IH]; intros l H; [exact H|]. apply IH, ok_maps_add_level; assumption. Qed.
  Lemma sub_add_levels n l : sub_maps l (add_levels n l).
  Proof.
    revert l. induction n as [|n IH]; intros l; [apply sub_maps_refl|]. cbn [add_levels].
    apply (sub_maps_trans l (add_level l)); [|apply IH].
    intros d m Hm. exists m; split; [|apply sub_map_refl]. unfold add_level.
    rewrite nth_error_app1; [exact Hm|]. apply nth_error_Some. congruence.
  Qed.
  Lemma add_levels_len n l : length (add_levels n l) = n + length l.
  Proof.
    revert l. induction n as [|n IH]; intros l; [reflexivity|]. cbn [add_levels]. rewrite IH.
    unfold add_level. rewrite app_length. cbn [length]. lia.
  Qed.
  Lemma ensure_len n l : length (ensure_levels n l) = Nat.max n (length l).
  Proof. unfold ensure_levels. rewrite add_levels_len. lia. Qed.
  Lemma sub_ensure n l : sub_maps l (ensure_levels n l).
  Proof. apply sub_add_levels. Qed.
  Lemma ok_ensure eval pts n l : compatible eval -> ok_maps eval pts l -> ok_maps eval pts (ensure_levels n l).
  Proof. apply ok_maps_add_levels. Qed.

  Lemma read_map_in d m i j : i <= 2 ^ d -> j <= 2 ^ d -> read_map d m i j = Ok (m i j).
  Proof.
    intros Hi Hj. unfold read_map, number_of_indices.
    destruct (Nat.ltb_spec i (2 ^ d + 1)); [|lia]. destruct (Nat.ltb_spec j (2 ^ d + 1)); [|lia]. reflexivity.
  Qed.

  (** what a request for a position returns *)
  Lemma ps_get_spec eval st d i j :
    compatible eval -> ok_maps eval (ps_points st) (ps_maps st) -> i <= 2 ^ d -> j <= 2 ^ d ->
    match eval d i j with
    | Ok p => exists st', ps_get eval st d i j = Ok (st', p) /\
                ok_maps eval (ps_points st') (ps_maps st') /\ extends st st' /\
                has (ps_maps st') d i j /\ length (ps_maps st') = Nat.max (S d) (length (ps_maps st))
    | Err e => ps_get eval st d i j = Err e
    end.
  Proof.
    intros Hc Hok Hi Hj. unfold ps_get, to_point_index, number_of_indices.
    destruct (Nat.leb_spec i (2 ^ d + 1)); [|lia]. destruct (Nat.leb_spec j (2 ^ d + 1)); [|lia].
    cbn [py_assert bind].
    set (maps := ensure_levels (S d) (ps_maps st)).
    assert (Hlen : length maps = Nat.max (S d) (length (ps_maps st))) by apply ensure_len.
    pose proof (ok_ensure eval (ps_points st) (S d) (ps_maps st) Hc Hok) as Hok'. fold maps in Hok'.
    pose proof (sub_ensure (S d) (ps_maps st)) as Hsub. fold maps in Hsub.
    unfold np_get at 1 3. destruct (nth_error maps d) as [m|] eqn:Hm.
    2: { apply nth_error_None in Hm. lia. }
    cbn [bind]. rewrite read_map_in by assumption. cbn [bind].
    destruct (m i j) as [k|] eqn:Hk.
    - destruct (Hok' d m Hm i j k Hk) as (_ & _ & p & Hp & He). rewrite He.
      exists (mkps (ps_points st) maps). cbn [bind ps_points ps_maps]. unfold np_get. rewrite Hp. cbn [bind].
      split; [reflexivity|]. split; [exact Hok'|]. split; [split; [exists []; rewrite app_nil_r; reflexivity|exact Hsub]|].
      split; [exists m, k; split; assumption|exact Hlen].
    - destruct (eval d i j) as [p|e] eqn:He; [|reflexivity]. cbn [bind ps_points ps_maps].
      set (k := length (ps_points st)).
      exists (mkps (ps_points st ++ [p]) (upd maps d (set_map m i j k))).
      assert (Hk' : nth_error (ps_points st ++ [p]) k = Some p)
        by (rewrite nth_error_app2 by (unfold k; lia); unfold k; rewrite Nat.sub_diag; reflexivity).
      unfold np_get. rewrite Hk'. cbn [bind ps_points ps_maps].
      assert (Hd : d < length maps) by lia.
      split; [reflexivity|]. split; [|split; [split; [exists [p]; reflexivity|]|split]].
      + intros d' m' Hm'. rewrite nth_error_upd in Hm'. destruct (Nat.eqb_spec d d') as [->|Hne].
        * destruct (Nat.ltb_spec d' (length maps)); [|lia]. injection Hm' as <-.
          intros i' j' k' Hs. unfold set_map in Hs.
          destruct ((i' =? i) && (j' =? j)) eqn:Eij.
          -- apply andb_true_iff in Eij. destruct Eij as (Ei & Ej). apply Nat.eqb_eq in Ei, Ej. subst i' j'.
             injection Hs as <-. repeat split; [exact Hi|exact Hj|]. exists p; split; [exact Hk'|exact He].
          -- apply (ok_map_app eval _ [p] d' m); [apply Hok', Hm|exact Hs].
        * apply ok_map_app. apply Hok', Hm'.
      + cbn [ps_maps]. apply (sub_maps_trans _ maps); [exact Hsub|]. intros d' m' Hm'. rewrite nth_error_upd.
        destruct (Nat.eqb_spec d d') as [->|Hne].
        * destruct (Nat.ltb_spec d' (length maps)); [|lia]. rewrite Hm in Hm'. injection Hm' as <-.
          exists (set_map m i j k). split; [reflexivity|]. intros i' j' k' Hs. unfold set_map.
          destruct ((i' =? i) && (j' =? j)); [exists k; reflexivity|exists k'; exact Hs].
        * exists m'; split; [exact Hm'|apply sub_map_refl].
      + exists (set_map m i j k), k. cbn [ps_maps]. rewrite nth_error_upd, Nat.eqb_refl.
        destruct (Nat.ltb_spec d (length maps)); [|lia]. split; [reflexivity|].
        unfold set_map. rewrite !Nat.eqb_refl. reflexivity.
      + cbn [ps_maps]. rewrite upd_len. exact Hlen.
  Qed.

  (** The quads depend on the surface and the decisions only, not on the caches. *)
  Definition decision eval decide (q : quad) : result (bool * bool) :=
    p1 <- eval (qd q) (qi0 q) (qj0 q) ;;
    p2 <- eval (qd q) (qi0 q) (qj1 q) ;;
    p3 <- eval (qd q) (qi1 q) (qj0 q) ;;
    p4 <- eval (qd q) (qi1 q) (qj1 q) ;;
    decide p1 p2 p3 p4.
  Fixpoint refine (fuel : nat) (dec : quad -> result (bool * bool)) (todo quads : list quad) : result (list quad) :=
    match todo with
    | [] => Ok quads
    | q :: rest =>
        match fuel with
        | O => Err OutOfFuel
        | S fuel' =>
            '(h, v) <- dec q ;;
            match split q h v with
            | Some children => refine fuel' dec (children ++ rest) quads
            | None => refine fuel' dec rest (quads ++ [q])
            end
        end
    end.
  Fixpoint refine_all fuel dec (starts quads : list quad) : result (list quad) :=
    match starts with
    | [] => Ok quads
    | q :: rest => quads' <- refine fuel dec [q] quads ;; refine_all fuel dec rest quads'
    end.

  Lemma split_wf q h v children : wfq q -> split q h v = Some children -> Forall wfq children.
  Proof.
    intros (H1 & H2 & H3 & H4) H. destruct h, v; cbn [split] in H; try discriminate; injection H as <-;
      repeat constructor; cbn [qd qi0 qi1 qj0 qj1]; cbn [Nat.pow]; lia.
  Qed.
  Lemma split_depth q h v children : split q h v = Some children -> Forall (fun c => qd c = S (qd q)) children.
  Proof. intros H. destruct h, v; cbn [split] in H; try discriminate; injection H as <-; repeat constructor. Qed.

  Definition corners_in (maps : list index_map) (q : quad) : Prop :=
    has maps (qd q) (qi0 q) (qj0 q) /\ has maps (qd q) (qi0 q) (qj1 q) /\
    has maps (qd q) (qi1 q) (qj0 q) /\ has maps (qd q) (qi1 q) (qj1 q).
  Lemma corners_sub l l' q : sub_maps l l' -> corners_in l q -> corners_in l' q.
  Proof. intros Hs (A & B & C & D). repeat split; eapply has_sub; eassumption. Qed.

  Definition good_quad sd (maps : list index_map) (q : quad) : Prop :=
    wfq q /\ sd <= qd q /\ corners_in maps q.
  Lemma good_quad_sub sd l l' q : sub_maps l l' -> good_quad sd l q -> good_quad sd l' q.
  Proof. intros Hs (A & B & C). repeat split; try apply A; try exact B; apply (corners_sub l l' q Hs C). Qed.

  Lemma subdivide_spec eval decide sd fuel : compatible eval -> forall st todo quads,
    ok_maps eval (ps_points st) (ps_maps st) ->
    Forall (fun q => wfq q /\ sd <= qd q) todo -> Forall (good_quad sd (ps_maps st)) quads ->
    match refine fuel (decision eval decide) todo quads with
    | Ok quads' => exists st', subdivide fuel eval decide st todo quads = Ok (st', quads') /\
         ok_maps eval (ps_points st') (ps_maps st') /\ extends st st' /\
         Forall (good_quad sd (ps_maps st')) quads' /\
         (todo <> [] -> length (ps_maps st') <> 0)
    | Err e => subdivide fuel eval decide st todo quads = Err e
    end.
  Proof.
    intros Hc. induction fuel as [|fuel IH]; intros st todo quads Hok Hw Hq.
    - destruct todo as [|q rest]; cbn [refine subdivide].
      + exists st. split; [reflexivity|]. split; [exact Hok|]. split; [apply extends_refl|]. split; [exact Hq|congruence].
      + reflexivity.
    - destruct todo as [|q rest]; cbn [refine subdivide].
      { exists st. split; [reflexivity|]. split; [exact Hok|]. split; [apply extends_refl|]. split; [exact Hq|congruence]. }
      inversion Hw as [|? ? (Hwq & Hd) Hw']; subst. unfold decision at 1.
      pose proof Hwq as (W1 & W2 & W3 & W4).
      pose proof (ps_get_spec eval st (qd q) (qi0 q) (qj0 q) Hc Hok ltac:(lia) ltac:(lia)) as G1.
      destruct (eval (qd q) (qi0 q) (qj0 q)) as [p1|e]; [|rewrite G1; reflexivity].
      destruct G1 as (st1 & -> & Hok1 & Hx1 & Hh1 & Hl1). cbn [bind].
      pose proof (ps_get_spec eval st1 (qd q) (qi0 q) (qj1 q) Hc Hok1 ltac:(lia) ltac:(lia)) as G2.
      destruct (eval (qd q) (qi0 q) (qj1 q)) as [p2|e]; [|rewrite G2; reflexivity].
      destruct G2 as (st2 & -> & Hok2 & Hx2 & Hh2 & Hl2). cbn [bind].
      pose proof (ps_get_spec eval st2 (qd q) (qi1 q) (qj0 q) Hc Hok2 ltac:(lia) ltac:(lia)) as G3.
      destruct (eval (qd q) (qi1 q) (qj0 q)) as [p3|e]; [|rewrite G3; reflexivity].
      destruct G3 as (st3 & -> & Hok3 & Hx3 & Hh3 & Hl3). cbn [bind].
      pose proof (ps_get_spec eval st3 (qd q) (qi1 q) (qj1 q) Hc Hok3 ltac:(lia) ltac:(lia)) as G4.
      destruct (eval (qd q) (qi1 q) (qj1 q)) as [p4|e]; [|rewrite G4; reflexivity].
      destruct G4 as (st4 & -> & Hok4 & Hx4 & Hh4 & Hl4). cbn [bind].
      destruct (decide p1 p2 p3 p4) as [(h, v)|e]; [|reflexivity]. cbn [bind].
      assert (Hx : extends st st4).
      { eapply extends_trans; [exact Hx1|]. eapply extends_trans; [exact Hx2|].
        eapply extends_trans; [exact Hx3|exact Hx4]. }
      assert (Hq4 : Forall (good_quad sd (ps_maps st4)) quads).
      { eapply Forall_impl; [|exact Hq]. intros a Ha. eapply good_quad_sub; [|exact Ha]. apply Hx. }
      destruct (split q h v) as [children|] eqn:Es.
      + assert (Hw2 : Forall (fun q => wfq q /\ sd <= qd q) (children ++ rest)).
        { apply Forall_app. split; [|exact Hw'].
          pose proof (split_wf _ _ _ _ Hwq Es) as F1. pose proof (split_depth _ _ _ _ Es) as F2.
          rewrite Forall_forall in F1, F2 |- *. intros c Hin. split; [apply F1, Hin|rewrite (F2 c Hin); lia]. }
        specialize (IH st4 (children ++ rest) quads Hok4 Hw2 Hq4).
        destruct (refine fuel (decision eval decide) (children ++ rest) quads) as [quads'|e]; [|exact IH].
        destruct IH as (st' & R & A & B & C & D). exists st'. split; [exact R|]. split; [exact A|].
        split; [eapply extends_trans; [exact Hx|exact B]|]. split; [exact C|]. intros _. apply D.
        destruct h, v; cbn [split] in Es; try discriminate; injection Es as <-; discriminate.
      + assert (Hq5 : Forall (good_quad sd (ps_maps st4)) (quads ++ [q])).
        { apply Forall_app. split; [exact Hq4|]. constructor; [|constructor]. split; [exact Hwq|]. split; [exact Hd|].
          assert (X3 : extends st3 st4) by exact Hx4.
          assert (X2 : extends st2 st4) by (eapply extends_trans; eassumption).
          assert (X1 : extends st1 st4) by (eapply extends_trans; [exact Hx2|]; eassumption).
          repeat split; [eapply has_sub; [apply X1|exact Hh1]|eapply has_sub; [apply X2|exact Hh2]
                        |eapply has_sub; [apply X3|exact Hh3]|exact Hh4]. }
        specialize (IH st4 rest (quads ++ [q]) Hok4 Hw' Hq5).
        destruct (refine fuel (decision eval decide) rest (quads ++ [q])) as [quads'|e]; [|exact IH].
        destruct IH as (st' & R & A & B & C & D). exists st'. split; [exact R|]. split; [exact A|].
        split; [eapply extends_trans; [exact Hx|exact B]|]. split; [exact C|]. intros _.
        destruct B as (_ & Hsub). intros E0.
        assert (Hm : has (ps_maps st4) (qd q) (qi1 q) (qj1 q)) by exact Hh4.
        apply (has_sub _ _ _ _ _ Hsub) in Hm. destruct Hm as (m & k & Hm & _).
        destruct (ps_maps st'); [destruct (qd q); discriminate|discriminate].
  Qed.

  Lemma subdivide_all_spec eval decide sd fuel : compatible eval -> forall starts st quads,
    ok_maps eval (ps_points st) (ps_maps st) ->
    Forall (fun q => wfq q /\ sd <= qd q) starts -> Forall (good_quad sd (ps_maps st)) quads ->
    match refine_all fuel (decision eval decide) starts quads with
    | Ok quads' => exists st', subdivide_all fuel eval decide st starts quads = Ok (st', quads') /\
         ok_maps eval (ps_points st') (ps_maps st') /\ extends st st' /\
         Forall (good_quad sd (ps_maps st')) quads'
    | Err e => subdivide_all fuel eval decide st starts quads = Err e
    end.
  Proof.
    intros Hc. induction starts as [|q rest IH]; intros st quads Hok Hw Hq; cbn [refine_all subdivide_all].
    - exists st. split; [reflexivity|]. split; [exact Hok|]. split; [apply extends_refl|exact Hq].
    - inversion Hw as [|? ? Hq0 Hw']; subst.
      pose proof (subdivide_spec eval decide sd fuel Hc st [q] quads Hok ltac:(repeat constructor; apply Hq0) Hq) as G.
      destruct (refine fuel (decision eval decide) [q] quads) as [quads1|e]; [|rewrite G; reflexivity].
      destruct G as (st1 & -> & Hok1 & Hx1 & Hq1 & _). cbn [bind].
      specialize (IH st1 quads1 Hok1 Hw' Hq1).
      destruct (refine_all fuel (decision eval decide) rest quads1) as [quads'|e]; [|exact IH].
      destruct IH as (st' & R & A & B & C). exists st'. split; [exact R|]. split; [exact A|].
      split; [eapply extends_trans; eassumption|exact C].
  Qed.

  Lemma start_wf sd : Forall (fun q => wfq q /\ sd <= qd q) (start_quads sd).
  Proof.
    unfold start_quads, number_of_indices. rewrite Nat.add_sub. apply Forall_flat_map. apply Forall_forall.
    intros i Hi. apply in_seq in Hi. apply Forall_map, Forall_forall. intros j Hj. apply in_seq in Hj.
    split; [repeat split; cbn [qd qi0 qi1 qj0 qj1]; lia|cbn [qd]; lia].
  Qed.
End Facts.
