(** Consistency of the orientation walk for lines and triangles. *)
From Coq Require Import Permutation Relations Sorted.
From Verif Require Import Base Float64 OrientModel MeshModel MeshSpec BaseFacts Float64Facts
  OrientFacts LabelFacts DedupFacts MeshFacts.

(** ** A graph of degree at most two can be directed *)
Definition swap (e : nat * nat) : nat * nat := (snd e, fst e).
Definition ends (E : list (nat * nat)) : list nat := flat_map (fun e => [fst e; snd e]) E.
Notation cnt := (count_occ Nat.eq_dec).

Lemma ends_app A B : ends (A ++ B) = ends A ++ ends B.
Proof. apply flat_map_app. Qed.

Definition pair_sf (e e' : nat * nat) : Prop := e' = e \/ e' = swap e.

Lemma pair_sf_ends E E' : Forall2 pair_sf E E' -> forall v, In v (ends E') <-> In v (ends E).
Proof.
  induction 1 as [|e e' E E' He H IH]; intros v; simpl; [tauto|].
  rewrite IH. destruct He as [->| ->]; destruct e; simpl; tauto.
Qed.

Lemma fst_ends E v : In v (map fst E) -> In v (ends E).
Proof. intros H. apply in_map_iff in H. destruct H as (e & <- & He). apply in_flat_map. exists e; simpl; auto. Qed.
Lemma snd_ends E v : In v (map snd E) -> In v (ends E).
Proof. intros H. apply in_map_iff in H. destruct H as (e & <- & He). apply in_flat_map. exists e; simpl; auto. Qed.

Lemma NoDup_insert {A} (x : A) l1 l2 : NoDup (l1 ++ l2) -> ~ In x (l1 ++ l2) -> NoDup (l1 ++ x :: l2).
Proof.
  intros H1 H2. eapply Permutation_NoDup; [apply Permutation_middle|]. constructor; assumption.
Qed.

Lemma not_In_cnt l v : cnt l v = 0 -> ~ In v l.
Proof. intros H Hin. apply (count_occ_In Nat.eq_dec) in Hin. lia. Qed.

Lemma degree2_orientable n : forall E,
  length E <= n -> (forall v, cnt (ends E) v <= 2) ->
  exists E', Forall2 pair_sf E E' /\ NoDup (map fst E') /\ NoDup (map snd E').
Proof.
  induction n as [|n IH]; intros E Hn Hd.
  - destruct E; [|simpl in Hn; lia]. exists []; repeat constructor.
  - destruct E as [|e1 E1]; [exists []; repeat constructor|]. simpl in Hn.
    assert (Hcase : (exists v, In v [fst e1; snd e1] /\ In v (ends E1)) \/
                    (forall v, In v [fst e1; snd e1] -> ~ In v (ends E1))).
    { destruct (in_dec Nat.eq_dec (fst e1) (ends E1)); [left; exists (fst e1); simpl; auto|].
      destruct (in_dec Nat.eq_dec (snd e1) (ends E1)); [left; exists (snd e1); simpl; auto|].
      right. intros v [<-|[<-|[]]]; assumption. }
    destruct Hcase as [(v & Hv1 & Hv2)|Hdis].
    + apply in_flat_map in Hv2. destruct Hv2 as (e2 & He2 & Hv2).
      apply in_split in He2. destruct He2 as (A & B & ->).
      assert (exists a, pair_sf e1 (a, v)) as [a Ha].
      { destruct e1 as [x y]; simpl in Hv1. destruct Hv1 as [->|[->|[]]].
        - exists y. right; reflexivity. - exists x. left; reflexivity. }
      assert (exists b, pair_sf e2 (v, b)) as [b Hb].
      { destruct e2 as [x y]; simpl in Hv2. destruct Hv2 as [->|[->|[]]].
        - exists y. left; reflexivity. - exists x. right; reflexivity. }
      assert (Hcnt : forall w, cnt (ends (e1 :: A ++ e2 :: B)) w =
                 cnt [a; v] w + cnt [v; b] w + cnt (ends (A ++ B)) w).
      { intros w. change (e1 :: A ++ e2 :: B) with ([e1] ++ A ++ [e2] ++ B).
        rewrite !ends_app, !count_occ_app.
        assert (forall e x y, pair_sf e (x, y) -> cnt (ends [e]) w = cnt [x; y] w) as Hs.
        { intros [p q] x y [H|H]; unfold swap in H; simpl in H; injection H as -> ->; [reflexivity|].
          simpl. destruct (Nat.eq_dec q w), (Nat.eq_dec p w); reflexivity. }
        rewrite (Hs _ _ _ Ha), (Hs _ _ _ Hb). lia. }
      assert (Hv0 : ~ In v (ends (A ++ B)) /\ a <> v /\ b <> v).
      { specialize (Hd v). rewrite Hcnt in Hd. cbn [count_occ] in Hd.
        destruct (Nat.eq_dec v v) as [_|]; [|congruence].
        destruct (Nat.eq_dec a v), (Nat.eq_dec b v); try lia.
        split; [apply not_In_cnt; lia|auto]. }
      destruct Hv0 as (Hv0 & Hav & Hbv).
      destruct (IH ((a, b) :: A ++ B)) as (E' & HF & N1 & N2).
      { simpl. rewrite app_length in *. simpl in Hn. lia. }
      { intros w. specialize (Hd w). rewrite Hcnt in Hd.
        change (ends ((a, b) :: A ++ B)) with ([a; b] ++ ends (A ++ B)).
        rewrite count_occ_app. cbn [count_occ] in *.
        destruct (Nat.eq_dec a w), (Nat.eq_dec b w), (Nat.eq_dec v w); lia. }
      inversion HF as [|? m' ? M' Hm HF']; subst. apply Forall2_app_inv_l in HF'.
      destruct HF' as (A' & B' & HA & HB & ->).
      assert (Hv' : ~ In v (ends (A' ++ B'))).
      { rewrite (pair_sf_ends (A ++ B)); [assumption|]. apply Forall2_app; assumption. }
      cbn [map] in N1, N2. rewrite map_app in N1, N2.
      apply NoDup_cons_iff in N1. apply NoDup_cons_iff in N2.
      destruct N1 as [N1a N1], N2 as [N2a N2].
      assert (Hvf : ~ In v (map fst A' ++ map fst B')).
      { rewrite <- map_app. intros H; apply fst_ends in H; auto. }
      assert (Hvs : ~ In v (map snd A' ++ map snd B')).
      { rewrite <- map_app. intros H; apply snd_ends in H; auto. }
      destruct Hm as [->| ->]; unfold swap in *; cbn [fst snd] in *.
      * exists ((a, v) :: A' ++ (v, b) :: B'). split; [|split].
        -- constructor; [assumption|]. apply Forall2_app; [assumption|]. constructor; assumption.
        -- cbn [map]. rewrite map_app. cbn [map fst]. constructor.
           ++ intros H. apply in_app_iff in H. destruct H as [H|[H|H]].
              ** apply N1a, in_app_iff; auto. ** congruence. ** apply N1a, in_app_iff; auto.
           ++ apply NoDup_insert; assumption.
        -- cbn [map]. rewrite map_app. cbn [map snd]. constructor.
           ++ intros H. apply in_app_iff in H. destruct H as [H|[H|H]].
              ** apply Hvs, in_app_iff; auto. ** congruence. ** apply Hvs, in_app_iff; auto.
           ++ apply NoDup_insert; assumption.
      * exists ((v, a) :: A' ++ (b, v) :: B'). split; [|split].
        -- constructor.
           { destruct e1 as [x y]. destruct Ha as [H|H]; unfold swap in *; simpl in *; injection H as -> ->;
               [right|left]; reflexivity. }
           apply Forall2_app; [assumption|]. constructor; [|assumption].
           destruct e2 as [x y]. destruct Hb as [H|H]; unfold swap in *; simpl in *; injection H as -> ->;
               [right|left]; reflexivity.
        -- cbn [map]. rewrite map_app. cbn [map fst]. constructor.
           ++ intros H. apply in_app_iff in H. destruct H as [H|[H|H]].
              ** apply Hvf, in_app_iff; auto. ** congruence. ** apply Hvf, in_app_iff; auto.
           ++ apply NoDup_insert; assumption.
        -- cbn [map]. rewrite map_app. cbn [map snd]. constructor.
           ++ intros H. apply in_app_iff in H. destruct H as [H|[H|H]].
              ** apply N2a, in_app_iff; auto. ** congruence. ** apply N2a, in_app_iff; auto.
           ++ apply NoDup_insert; assumption.
    + destruct (IH E1) as (E' & HF & N1 & N2).
      { lia. }
      { intros v. specialize (Hd v). simpl in Hd.
        destruct (Nat.eq_dec (fst e1) v), (Nat.eq_dec (snd e1) v); lia. }
      exists (e1 :: E'). split; [|split].
      * constructor; [left; reflexivity|assumption].
      * simpl. constructor; [|assumption]. intros H. apply fst_ends in H.
        rewrite (pair_sf_ends _ _ HF) in H. apply (Hdis (fst e1)); simpl; auto.
      * simpl. constructor; [|assumption]. intros H. apply snd_ends in H.
        rewrite (pair_sf_ends _ _ HF) in H. apply (Hdis (snd e1)); simpl; auto.
Qed.

(** ** Lines *)
Definition ends_of (r : row) : nat * nat := match r with a :: b :: _ => (a, b) | _ => (0, 0) end.

Lemma orient_rows (w : nat) (els : list row) :
  w = 2 \/ w = 4 -> Forall (fun r => length r = w) els ->
  (forall v, degree els v <= 2) ->
  exists ref, Forall2 line_sf els ref /\ head_to_tail ref.
Proof.
  intros Hw HP Hd.
  assert (He : ends (map ends_of els) = concat (map (firstn 2) els)).
  { clear Hd. induction HP as [|r els Hr HP IH]; [reflexivity|]. simpl. rewrite IH.
    destruct r as [|a [|b r]]; simpl in *; try lia. reflexivity. }
  destruct (degree2_orientable (length (map ends_of els)) (map ends_of els) (le_n _)) as (E' & HF & N1 & N2).
  { intros v. rewrite He. apply Hd. }
  assert (Hex : exists ref, Forall2 line_sf els ref /\ map ends_of ref = E').
  { clear Hd He N1 N2. revert E' HF; induction HP as [|r els Hr HP IH]; intros E' HF; simpl in HF.
    - inversion HF; subst. exists []; split; [constructor|reflexivity].
    - inversion HF as [|? e' ? E1 He HF']; subst. destruct (IH _ HF') as (ref & H1 & H2).
      assert (exists r', line_sf r r' /\ ends_of r' = e') as (r' & H3 & H4).
      { destruct He as [->| ->].
        - exists r; split; [left|]; reflexivity.
        - exists (reversed_line r). split; [right; reflexivity|].
          destruct r as [|a [|b [|c [|d [|e r]]]]]; simpl in *; try lia; reflexivity. }
      exists (r' :: ref). split; [constructor; assumption|]. simpl. congruence. }
  destruct Hex as (ref & HR & <-). exists ref. split; [assumption|].
  intros i j a b s c d t Hij Hi Hj.
  assert (Gi : nth_error (map ends_of ref) i = Some (a, b)) by (rewrite nth_error_map, Hi; reflexivity).
  assert (Gj : nth_error (map ends_of ref) j = Some (c, d)) by (rewrite nth_error_map, Hj; reflexivity).
  rewrite NoDup_nth_error in N1, N2.
  assert (Li : i < length (map ends_of ref)) by (eapply nth_error_lt; eauto).
  split; intros E; apply Hij.
  - apply N1; [rewrite map_length; assumption|]. rewrite !(nth_error_map fst).
    rewrite Gi, Gj. simpl. congruence.
  - apply N2; [rewrite map_length; assumption|]. rewrite !(nth_error_map snd).
    rewrite Gi, Gj. simpl. congruence.
Qed.

(** The lines are linked through common end points. *)
Definition ends_connected (els : list row) : Prop :=
  forall i, i < length els -> connected (map (firstn 2) els) 0 i.

(** The inner points of higher order lines are not end points of lines. *)
Definition inner_points_free (els : list row) : Prop :=
  forall i j r s v, nth_error els i = Some r -> nth_error els j = Some s ->
    In v (skipn 2 r) -> ~ In v (firstn 2 s).

Lemma line_sf_firstn r r' : length r = 2 \/ length r = 4 -> line_sf r r' ->
  forall v, In v (firstn 2 r') <-> In v (firstn 2 r).
Proof.
  intros Hl [->| ->] v; [tauto|].
  destruct r as [|a [|b [|c [|d [|e r]]]]]; simpl in *; try lia; tauto.
Qed.
Lemma line_sf_skipn r r' : length r = 2 \/ length r = 4 -> line_sf r r' ->
  forall v, In v (skipn 2 r') <-> In v (skipn 2 r).
Proof.
  intros Hl [->| ->] v; [tauto|].
  destruct r as [|a [|b [|c [|d [|e r]]]]]; simpl in *; try lia; tauto.
Qed.

Lemma nth_map_firstn (els : list row) n k :
  nth_error (map (firstn 2) els) n = Some k -> exists r, nth_error els n = Some r /\ k = firstn 2 r.
Proof.
  revert n; induction els as [|e els IH]; intros [|n] H; cbn [map nth_error] in *; try discriminate.
  - injection H as <-. eauto.
  - auto.
Qed.

Lemma reorient_lines_consistent els els' :
  all_width 2 els || all_width 4 els = true ->
  (forall v, degree els v <= 2) ->
  inner_points_free els -> ends_connected els ->
  reorient_lines els = Ok els' -> head_to_tail els'.
Proof.
  intros Hwid Hd Hfree Hcon H.
  assert (Hw : exists w, (w = 2 \/ w = 4) /\ Forall (fun r => length r = w) els).
  { apply orb_true_iff in Hwid. destruct Hwid as [W|W]; apply all_width_Forall in W; eauto. }
  destruct Hw as (w & Hw & HP).
  destruct els as [|e0 els0] eqn:Eels.
  { apply reorient_lines_sf in H. inversion H; subst. intros i j; destruct i; discriminate. }
  rewrite <- Eels in *.
  destruct (orient_rows w els Hw HP Hd) as (ref & HR & Hht).
  set (N := length els) in *.
  assert (Hlen : length ref = N) by (symmetry; eapply Forall2_length; eauto).
  assert (HPr : Forall (fun r => length r = w) ref).
  { eapply (Forall_rel line_sf); [|exact HR|exact HP]. intros a b Hab Ha. apply line_sf_length in Hab; lia. }
  set (sd := fun (b : bool) i => let r := nth i ref [] in if b then reversed_line r else r).
  set (edge := fun i j => exists v, In v (firstn 2 (nth i ref [])) /\ In v (firstn 2 (nth j ref []))).
  assert (Hrow : forall i, i < N -> exists a b s, nth i ref [] = a :: b :: s /\
             nth_error ref i = Some (a :: b :: s) /\ (s = [] \/ exists c d, s = [c; d])).
  { intros i Hi. destruct (nth_error_total ref i) as [r Hr]; [lia|].
    assert (length r = w) by (rewrite Forall_forall in HPr; apply HPr; eapply nth_error_In; eauto).
    rewrite (nth_error_nth _ _ _ Hr).
    destruct Hw; subst w; destruct r as [|a [|b [|c [|d [|e r]]]]]; simpl in *; try lia; eauto 10. }
  assert (Hsfi : forall i, i < N -> exists r, nth_error els i = Some r /\ line_sf r (nth i ref []) /\ length r = w).
  { intros i Hi. destruct (nth_error_total els i) as [r Hr]; [assumption|]. exists r. split; [assumption|].
    destruct (Forall2_nth_l _ _ _ _ _ HR Hr) as (r' & Hr' & Hsf).
    rewrite (nth_error_nth _ _ _ Hr'). split; [assumption|].
    rewrite Forall_forall in HP. apply HP. eapply nth_error_In; eauto. }
  assert (Hkeys : forall b i n, i < N ->
     (In n (get_element_neighbours (sd b i) (compute_vertex_to_indices (map (firstn 2) els))) <->
      n < N /\ edge i n)).
  { intros b i n Hi. rewrite get_element_neighbours_In.
    destruct (Hsfi i Hi) as (ri & Eri & Si & Li).
    assert (Wi : length ri = 2 \/ length ri = 4) by lia.
    split.
    - intros (k & v & Hk & Hv & Hvk). apply nth_map_firstn in Hk. destruct Hk as (rn & Ern & ->).
      assert (Hn : n < N) by (eapply nth_error_lt; eauto). split; [assumption|].
      destruct (Hsfi n Hn) as (rn' & Ern' & Sn & Ln). assert (rn' = rn) by congruence; subst rn'.
      assert (Wn : length rn = 2 \/ length rn = 4) by lia.
      assert (Hvr : In v (nth i ref [])).
      { unfold sd in Hv. destruct b; [apply reversed_line_In|]; assumption. }
      rewrite <- (firstn_skipn 2 (nth i ref [])) in Hvr. apply in_app_iff in Hvr.
      exists v. split; [|apply (line_sf_firstn _ _ Wn Sn); assumption].
      destruct Hvr as [Hvr|Hvr]; [assumption|]. exfalso.
      apply (line_sf_skipn _ _ Wi Si) in Hvr. exact (Hfree i n ri rn v Eri Ern Hvr Hvk).
    - intros (Hn & v & Hv1 & Hv2).
      destruct (Hsfi n Hn) as (rn & Ern & Sn & Ln).
      assert (Wn : length rn = 2 \/ length rn = 4) by lia.
      exists (firstn 2 rn), v. split; [exact (map_nth_error (firstn 2) n els Ern)|]. split.
      + assert (In v (nth i ref [])) by (rewrite <- (firstn_skipn 2 (nth i ref [])); apply in_app_iff; auto).
        unfold sd. destruct b; [apply reversed_line_In|]; assumption.
      + apply (line_sf_firstn _ _ Wn Sn); assumption. }
  unfold reorient_lines in H. rewrite Hwid in H. cbn [py_assert bind] in H.
  rewrite Nat.add_comm in H. change (3 + length els) with (S (2 + length els)) in H.
  destruct (walk_consistent line_test flip_line N (compute_vertex_to_indices (map (firstn 2) els)) sd edge)
    with (fuel := 2 + length els) (els := els) (els' := els') as (s & Hsd' & Hall).
  - intros i n. unfold edge.
    destruct (existsb (fun v => memb v (firstn 2 (nth n ref []))) (firstn 2 (nth i ref []))) eqn:E.
    + left. apply existsb_exists in E. destruct E as (v & H1 & H2). exists v. split; [assumption|apply memb_In; assumption].
    + right. intros (v & H1 & H2). apply memb_In in H2.
      assert (existsb (fun v => memb v (firstn 2 (nth n ref []))) (firstn 2 (nth i ref [])) = true)
        by (apply existsb_exists; eauto). congruence.
  - intros b i Hi. destruct (Hrow i Hi) as (x & y & t & Er & _ & Ht).
    unfold sd. rewrite Er. destruct Ht as [->|(c & d & ->)]; destruct b; reflexivity.
  - intros b i n Hi Hin. apply Hkeys in Hin; tauto.
  - intros b i n Hi Hn _ He. apply Hkeys; auto.
  - intros a b i n Hi Hin. apply Hkeys; [assumption|]. apply Hkeys in Hin; assumption.
  - intros b. assert (H0 : 0 < N) by (unfold N; rewrite Eels; simpl; lia).
    destruct (Hrow 0 H0) as (x & y & t & Er & _ & Ht).
    destruct (Hsfi 0 H0) as (r0 & Er0 & S0 & L0).
    assert (W0 : length r0 = 2 \/ length r0 = 4) by lia.
    assert (e0 = r0) by (rewrite Eels in Er0; simpl in Er0; congruence). subst e0.
    rewrite Eels. cbn [map].
    assert (Hxy : forall v, v = x \/ v = y -> In v (firstn 2 r0)).
    { intros v Hv. apply (line_sf_firstn _ _ W0 S0). rewrite Er. simpl. intuition. }
    unfold sd. rewrite Er.
    destruct Ht as [->|(c & d & ->)]; destruct b; simpl reversed_line;
      apply get_element_neighbours_head; apply Hxy; auto.
  - intros b. assert (H0 : 0 < N) by (unfold N; rewrite Eels; simpl; lia).
    destruct (Hrow 0 H0) as (x & y & t & Er & _ & Ht). unfold sd. rewrite Er.
    unfold line_test, line_orientation_equal.
    destruct Ht as [->|(c & d & ->)]; destruct b; simpl; destruct (_ =? _); simpl; eauto.
  - intros a b i n Hi Hn Hne (v & Hv1 & Hv2).
    destruct (Hrow i Hi) as (x & y & t & Er & Ei & Ht).
    destruct (Hrow n Hn) as (x' & y' & t' & Er' & Ei' & Ht').
    destruct (Hht _ _ _ _ _ _ _ _ Hne Ei Ei') as [D1 D2].
    rewrite Er in Hv1. rewrite Er' in Hv2. simpl in Hv1, Hv2.
    assert (Hxy : y = x' \/ y' = x).
    { destruct Hv1 as [<-|[<-|[]]]; destruct Hv2 as [Hv2|[Hv2|[]]]; auto; congruence. }
    unfold sd. rewrite Er, Er'. unfold line_test, line_orientation_equal.
    assert (G : forall p q p' q', bind (if q =? p' then Ok true else if q' =? p then Ok true else Ok false)
               (fun e => Ok (Some e)) = Ok (Some ((q =? p') || (q' =? p)))).
    { intros. destruct (q =? p'), (q' =? p); reflexivity. }
    destruct Ht as [->|(c & d & ->)]; destruct Ht' as [->|(c' & d' & ->)]; destruct a, b;
      cbn [reversed_line firstn]; rewrite G; f_equal; f_equal; cbn [Bool.eqb];
      first [apply orb_true_iff; rewrite !Nat.eqb_eq; intuition congruence
            |apply orb_false_iff; rewrite !Nat.eqb_neq; intuition congruence].
  - intros a b i n Hi Hn Hne Hnedge Hin. apply Hkeys in Hin; [tauto|assumption].
  - unfold N; rewrite Eels; simpl; lia.
  - split; [reflexivity|]. intros i Hi.
    destruct (Hsfi i Hi) as (r & Er & Sr & Lr). destruct Sr as [Sr|Sr].
    + exists false. unfold sd. rewrite Sr. assumption.
    + exists true. unfold sd. rewrite Sr, reversed_line_inv. assumption.
  - exact H.
  - assert (Hreach : forall i, i < N -> reach N edge i).
    { intros i Hi. specialize (Hcon i Hi).
      assert (Hgen : forall i j, connected (map (firstn 2) els) i j -> reach N edge i -> reach N edge j).
      { intros a b Hab. induction Hab as [a b Hs|a|a b c _ IH1 _ IH2]; auto.
        intros Ha. destruct (Nat.eq_dec a b) as [->|Hne]; [assumption|].
        destruct Hs as (ra & rb & v & Hra & Hrb & Hva & Hvb).
        apply nth_map_firstn in Hra. destruct Hra as (ea & Ea & ->).
        apply nth_map_firstn in Hrb. destruct Hrb as (eb & Eb & ->).
        assert (La : a < N) by (eapply nth_error_lt; eauto).
        assert (Lb : b < N) by (eapply nth_error_lt; eauto).
        apply (reach_step _ _ a); auto.
        destruct (Hsfi a La) as (ra & Era & Sa & Wa). destruct (Hsfi b Lb) as (rb & Erb & Sb & Wb).
        assert (ra = ea) by congruence. assert (rb = eb) by congruence. subst ra rb.
        exists v. split; [apply (line_sf_firstn ea _ ltac:(lia) Sa)|apply (line_sf_firstn eb _ ltac:(lia) Sb)]; assumption. }
      apply (Hgen 0 i Hcon). constructor. }
    destruct Hsd' as [Hl' _].
    intros i j a b t c d t' Hij Hi Hj.
    assert (Li : i < N) by (rewrite <- Hl'; eapply nth_error_lt; eauto).
    assert (Lj : j < N) by (rewrite <- Hl'; eapply nth_error_lt; eauto).
    rewrite (Hall i Li (Hreach i Li)) in Hi. rewrite (Hall j Lj (Hreach j Lj)) in Hj.
    injection Hi as Hi. injection Hj as Hj.
    destruct (Hrow i Li) as (x & y & u & Er & Ei & Hu).
    destruct (Hrow j Lj) as (x' & y' & u' & Er' & Ei' & Hu').
    destruct (Hht _ _ _ _ _ _ _ _ Hij Ei Ei') as [D1 D2].
    unfold sd in Hi, Hj. rewrite Er in Hi. rewrite Er' in Hj.
    destruct Hu as [->|(? & ? & ->)]; destruct Hu' as [->|(? & ? & ->)]; destruct s; simpl in Hi, Hj;
      injection Hi as <- <- <-; injection Hj as <- <- <-; auto.
Qed.

(** ** Triangles *)
Lemma directed_reversed r a b :
  length r = 3 -> (directed_edge (reversed_triangle r) a b <-> directed_edge r b a).
Proof. destruct r as [|x [|y [|z [|w r]]]]; simpl; try lia; tauto. Qed.

Lemma directed_In r a b : directed_edge r a b -> In a r /\ In b r.
Proof. destruct r as [|x [|y [|z [|w r]]]]; simpl; try tauto. intuition subst; auto. Qed.

Lemma directed_edge_dec r a b : directed_edge r a b \/ ~ directed_edge r a b.
Proof.
  destruct r as [|x [|y [|z [|w r]]]]; simpl; try tauto.
  destruct (Nat.eq_dec a x), (Nat.eq_dec a y), (Nat.eq_dec a z),
    (Nat.eq_dec b x), (Nat.eq_dec b y), (Nat.eq_dec b z); tauto.
Qed.

Lemma three_edges r : length r = 3 -> exists l, forall a b, directed_edge r a b <-> In (a, b) l.
Proof.
  destruct r as [|x [|y [|z [|w r]]]]; simpl; try lia. intros _.
  exists [(x, y); (y, z); (z, x)]. intros a b; simpl. split.
  - intros [[-> ->]|[[-> ->]|[-> ->]]]; auto.
  - intros [H|[H|[H|[]]]]; injection H as <- <-; auto.
Qed.

Lemma share_dec r s : length r = 3 ->
  (exists a b, directed_edge r a b /\ (directed_edge s a b \/ directed_edge s b a)) \/
  (forall a b, directed_edge r a b -> ~ directed_edge s a b /\ ~ directed_edge s b a).
Proof.
  intros Hr. destruct (three_edges r Hr) as [l Hl].
  assert (G : (exists e, In e l /\ (directed_edge s (fst e) (snd e) \/ directed_edge s (snd e) (fst e))) \/
              (forall e, In e l -> ~ directed_edge s (fst e) (snd e) /\ ~ directed_edge s (snd e) (fst e))).
  { clear Hl. induction l as [|e l IH]; [right; intros e []|].
    destruct (directed_edge_dec s (fst e) (snd e)) as [H|H]; [left; exists e; simpl; auto|].
    destruct (directed_edge_dec s (snd e) (fst e)) as [H'|H']; [left; exists e; simpl; auto|].
    destruct IH as [(e' & H1 & H2)|IH]; [left; exists e'; simpl; auto|].
    right. intros e' [<-|He']; auto. }
  destruct G as [([a b] & H1 & H2)|G].
  - left. exists a, b. split; [apply Hl; assumption|assumption].
  - right. intros a b Hab. apply Hl in Hab. apply (G (a, b)); assumption.
Qed.

Lemma reorient_triangles_consistent o pts (els els' : list row) :
  Forall (fun r => length r = 3) els -> comparison_ok o pts els ->
  (exists ref, Forall2 tri_sf els ref /\ opposite_edges ref) ->
  (forall i, i < length els -> edge_connected els 0 i) ->
  reorient_triangles o pts els = Ok els' -> opposite_edges els'.
Proof.
  intros HP Hcmp (ref & HR & Hopp) Hcon H. unfold reorient_triangles in H.
  destruct els as [|e0 els0] eqn:Eels.
  { injection H as <-. intros i j; destruct i; discriminate. }
  rewrite <- Eels in *.
  set (N := length els) in *.
  assert (Hlen : length ref = N) by (symmetry; eapply Forall2_length; eauto).
  set (sd := fun (b : bool) i => let r := nth i ref [] in if b then reversed_triangle r else r).
  set (edge := fun i j => exists a b, directed_edge (nth i ref []) a b /\
       (directed_edge (nth j ref []) a b \/ directed_edge (nth j ref []) b a)).
  assert (Hrow : forall i, i < N -> exists r : row, nth_error els i = Some r /\ length r = 3 /\
     tri_sf r (nth i ref []) /\ nth_error ref i = Some (nth i ref []) /\ length (nth i ref []) = 3).
  { intros i Hi. destruct (nth_error_total els i) as [r Hr]; [assumption|]. exists r.
    destruct (Forall2_nth_l _ _ _ _ _ HR Hr) as (r' & Hr' & Hsf).
    rewrite (nth_error_nth _ _ _ Hr').
    assert (length r = 3) by (rewrite Forall_forall in HP; apply HP; eapply nth_error_In; eauto).
    repeat split; auto. rewrite (tri_sf_length _ _ Hsf); assumption. }
  assert (Hcmp2 : forall a b i n, i < N -> n < N -> compares_edges o pts (sd a i) (sd b n)).
  { intros a b i n Hi Hn. destruct (Hrow i Hi) as (r & Er & _ & Sr & _ & _).
    destruct (Hrow n Hn) as (s & Es & _ & Ss & _ & _).
    apply (Hcmp r s); [eapply nth_error_In; eauto|eapply nth_error_In; eauto| |]; unfold sd.
    - destruct Sr as [->| ->]; destruct a; rewrite ?reversed_triangle_inv; auto.
    - destruct Ss as [->| ->]; destruct b; rewrite ?reversed_triangle_inv; auto. }
  assert (Hvert : forall b i v, i < N -> In v (sd b i) <-> In v (nth i ref [])).
  { intros b i v Hi. unfold sd. destruct b; [apply reversed_triangle_In|tauto]. }
  assert (Hnb : forall b i n, i < N ->
     (In n (get_element_neighbours (sd b i) (compute_vertex_to_indices els)) <->
      n < N /\ exists v, In v (nth i ref []) /\ In v (nth n ref []))).
  { intros b i n Hi. rewrite get_element_neighbours_In. split.
    - intros (k & v & Hk & Hv & Hvk). assert (Hn : n < N) by (eapply nth_error_lt; eauto).
      split; [assumption|]. exists v. split; [apply (Hvert b i v Hi); assumption|].
      destruct (Hrow n Hn) as (s & Es & _ & Ss & _ & _). assert (s = k) by congruence. subst.
      apply (tri_sf_In _ _ _ Ss); assumption.
    - intros (Hn & v & H1 & H2). destruct (Hrow n Hn) as (s & Es & _ & Ss & _ & _).
      exists s, v. split; [assumption|]. split; [apply Hvert; assumption|].
      apply (tri_sf_In _ _ _ Ss); assumption. }
  assert (Hdir : forall i n, i < N -> n < N -> i <> n -> edge i n ->
     exists a b, directed_edge (nth i ref []) a b /\ directed_edge (nth n ref []) b a).
  { intros i n Hi Hn Hne (a & b & H1 & [H2|H2]); [|eauto]. exfalso.
    destruct (Hrow i Hi) as (r & _ & _ & _ & Er & _). destruct (Hrow n Hn) as (s & _ & _ & _ & Es & _).
    exact (Hopp _ _ _ _ _ _ Hne Er Es H1 H2). }
  rewrite Nat.add_comm in H. change (3 + length els) with (S (2 + length els)) in H.
  destruct (walk_consistent (triangle_test o pts) flip_triangle N (compute_vertex_to_indices els) sd edge)
    with (fuel := 2 + length els) (els := els) (els' := els') as (s & Hsd' & Hall).
  - intros i n. unfold edge. destruct (Nat.eq_dec (length (nth i ref [])) 3) as [E|E].
    + destruct (share_dec (nth i ref []) (nth n ref []) E) as [G|G]; [left; exact G|right].
      intros (a & b & H1 & H2). apply G in H1. tauto.
    + right. intros (a & b & H1 & _).
      destruct (nth i ref []) as [|x [|y [|z [|w r]]]]; simpl in *; try contradiction; congruence.
  - intros b i Hi. destruct (Hrow i Hi) as (r & _ & _ & _ & _ & E3). unfold sd.
    destruct b; simpl.
    + rewrite flip_triangle_total by (rewrite reversed_triangle_length; assumption).
      rewrite reversed_triangle_inv. reflexivity.
    + apply flip_triangle_total; assumption.
  - intros b i n Hi Hin. apply Hnb in Hin; tauto.
  - intros b i n Hi Hn _ (x & y & H1 & H2). apply Hnb; [assumption|]. split; [assumption|].
    exists x. split; [apply (directed_In _ _ _ H1)|]. destruct H2 as [H2|H2]; apply directed_In in H2; apply H2.
  - intros a b i n Hi Hin. apply Hnb; [assumption|]. apply Hnb in Hin; assumption.
  - intros b. assert (H0 : 0 < N) by (unfold N; rewrite Eels; simpl; lia).
    destruct (Hrow 0 H0) as (r0 & Er0 & _ & S0 & _ & L0).
    assert (e0 = r0) by (rewrite Eels in Er0; simpl in Er0; congruence). subst e0. rewrite Eels.
    assert (Hv : forall v, In v (sd b 0) -> In v r0).
    { intros v Hv. apply Hvert in Hv; [|assumption]. apply (tri_sf_In _ _ _ S0); assumption. }
    assert (L1 : length (sd b 0) = 3) by (unfold sd; destruct b; rewrite ?reversed_triangle_length; assumption).
    destruct (sd b 0) as [|v l]; [discriminate|].
    apply get_element_neighbours_head. apply Hv; left; reflexivity.
  - intros b. assert (H0 : 0 < N) by (unfold N; rewrite Eels; simpl; lia).
    destruct (Hcmp2 b b 0 0 H0 H0) as (_ & _ & Hsame).
    destruct (Hrow 0 H0) as (r0 & _ & _ & _ & _ & L0).
    assert (L1 : length (sd b 0) = 3) by (unfold sd; destruct b; rewrite ?reversed_triangle_length; assumption).
    destruct (sd b 0) as [|x [|y [|z [|w l]]]]; try discriminate.
    unfold triangle_test. rewrite (Hsame x y) by (simpl; auto). simpl. eauto.
  - intros a b i n Hi Hn Hne He.
    destruct (Hdir i n Hi Hn Hne He) as (x & y & H1 & H2).
    destruct (Hcmp2 a b i n Hi Hn) as (_ & Hop & Hsm).
    destruct (Hrow i Hi) as (_ & _ & _ & _ & _ & Li). destruct (Hrow n Hn) as (_ & _ & _ & _ & _ & Ln).
    unfold triangle_test.
    destruct a, b; simpl Bool.eqb.
    + rewrite (Hop y x); [reflexivity| |]; unfold sd; apply directed_reversed; assumption.
    + rewrite (Hsm y x); [reflexivity| |]; unfold sd; [apply directed_reversed; assumption|assumption].
    + rewrite (Hsm x y); [reflexivity| |]; unfold sd; [assumption|apply directed_reversed; assumption].
    + rewrite (Hop x y); [reflexivity| |]; unfold sd; assumption.
  - intros a b i n Hi Hn Hne Hnedge Hin.
    destruct (Hcmp2 a b i n Hi Hn) as (Hno & _ & _).
    destruct (Hrow i Hi) as (_ & _ & _ & _ & _ & Li). destruct (Hrow n Hn) as (_ & _ & _ & _ & _ & Ln).
    unfold triangle_test. rewrite Hno; [reflexivity|].
    assert (Hn0 : forall x y, directed_edge (nth i ref []) x y ->
       ~ directed_edge (nth n ref []) x y /\ ~ directed_edge (nth n ref []) y x).
    { intros x y Hxy. split; intros Hd; apply Hnedge; exists x, y; auto. }
    intros x y Hxy. unfold sd in *. destruct a, b; rewrite ?directed_reversed in * by assumption;
      apply Hn0 in Hxy; tauto.
  - unfold N; rewrite Eels; simpl; lia.
  - split; [reflexivity|]. intros i Hi.
    destruct (Hrow i Hi) as (r & Er & _ & Sr & _ & _). destruct Sr as [Sr|Sr].
    + exists false. unfold sd. rewrite Sr. assumption.
    + exists true. unfold sd. rewrite Sr, reversed_triangle_inv. assumption.
  - exact H.
  - assert (Hreach : forall i, i < N -> reach N edge i).
    { intros i Hi. specialize (Hcon i Hi).
      assert (Hgen : forall i j, edge_connected els i j -> reach N edge i -> reach N edge j).
      { intros a b Hab. induction Hab as [a b Hs|a|a b c _ IH1 _ IH2]; auto.
        intros Ha. destruct (Nat.eq_dec a b) as [->|Hne]; [assumption|].
        destruct Hs as (ra & rb & x & y & Hra & Hrb & Hx & Hy).
        assert (La : a < N) by (eapply nth_error_lt; eauto).
        assert (Lb : b < N) by (eapply nth_error_lt; eauto).
        apply (reach_step _ _ a); auto.
        destruct (Hrow a La) as (ra' & Era & L1 & Sa & _ & _). destruct (Hrow b Lb) as (rb' & Erb & L2 & Sb & _ & _).
        assert (ra' = ra) by congruence. assert (rb' = rb) by congruence. subst ra' rb'.
        unfold edge. destruct Sa as [->| ->], Sb as [->| ->].
        - exists x, y; tauto.
        - exists x, y. split; [assumption|]. rewrite !directed_reversed by assumption. tauto.
        - exists y, x. split; [apply directed_reversed; assumption|tauto].
        - exists y, x. split; [apply directed_reversed; assumption|].
          rewrite !directed_reversed by assumption. tauto. }
      apply (Hgen 0 i Hcon). constructor. }
    destruct Hsd' as [Hl' _].
    intros i j r t a b Hij Hi Hj Hd Hd'.
    assert (Li : i < N) by (rewrite <- Hl'; eapply nth_error_lt; eauto).
    assert (Lj : j < N) by (rewrite <- Hl'; eapply nth_error_lt; eauto).
    rewrite (Hall i Li (Hreach i Li)) in Hi. rewrite (Hall j Lj (Hreach j Lj)) in Hj.
    injection Hi as <-. injection Hj as <-.
    destruct (Hrow i Li) as (_ & _ & _ & _ & Er & Lr). destruct (Hrow j Lj) as (_ & _ & _ & _ & Es & Ls).
    unfold sd in Hd, Hd'. destruct s.
    + rewrite directed_reversed in Hd, Hd' by assumption. exact (Hopp _ _ _ _ _ _ Hij Er Es Hd Hd').
    + exact (Hopp _ _ _ _ _ _ Hij Er Es Hd Hd').
Qed.
