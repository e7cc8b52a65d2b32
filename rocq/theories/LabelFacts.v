(** _get_connected_elements computes the connected components. *)
From Coq Require Import Permutation Relations Sorted.
From Verif Require Import Base Float64 OrientModel MeshModel MeshSpec BaseFacts OrientFacts.

Lemma where_label_In c : forall labels k i,
  In i (where_label c k labels) <-> k <= i /\ nth_error labels (i - k) = Some (Some c).
Proof.
  induction labels as [|l labels IH]; intros k i; simpl.
  - split; [tauto|]. intros [_ H]. destruct (i - k); discriminate.
  - assert (Hrest : In i (where_label c (S k) labels) <->
              (S k <= i /\ nth_error (l :: labels) (i - k) = Some (Some c))).
    { rewrite IH. split; intros [Ha Hb]; (split; [lia|]);
        [replace (i - k) with (S (i - S k)) by lia; assumption
        |replace (i - k) with (S (i - S k)) in Hb by lia; assumption]. }
    destruct l as [a|].
    + destruct (Nat.eqb_spec a c) as [->|Hne].
      * simpl. rewrite Hrest. split.
        -- intros [<-|[Ha Hb]]; [rewrite Nat.sub_diag; auto|split; [lia|assumption]].
        -- intros [Ha Hb]. destruct (Nat.eq_dec k i); [auto|right; split; [lia|assumption]].
      * rewrite Hrest. split; intros [Ha Hb]; split; auto; try lia.
        destruct (Nat.eq_dec k i) as [->|]; [|lia]. rewrite Nat.sub_diag in Hb. simpl in Hb. congruence.
    + rewrite Hrest. split; intros [Ha Hb]; split; auto; try lia.
      destruct (Nat.eq_dec k i) as [->|]; [|lia]. rewrite Nat.sub_diag in Hb. simpl in Hb. congruence.
Qed.

Lemma where_label_sorted c : forall labels k, StronglySorted lt (where_label c k labels).
Proof.
  induction labels as [|l labels IH]; intros k; simpl; [constructor|].
  destruct l as [a|]; [|apply IH]. destruct (a =? c); [|apply IH].
  constructor; [apply IH|]. apply Forall_forall. intros x Hx. apply where_label_In in Hx. lia.
Qed.

Section Label.
  Variable els : list row.
  Let N := length els.
  Let m := compute_vertex_to_indices els.

  Definition unl (labels : list (option nat)) : nat :=
    count_true (map (fun l => match l with None => true | _ => false end) labels).

  Lemma unl_upd labels n c :
    nth_error labels n = Some None -> S (unl (upd labels n (Some c))) = unl labels.
  Proof.
    revert n; induction labels as [|b labels IH]; intros [|n] H; simpl in *; try discriminate.
    - injection H as ->. reflexivity.
    - apply IH in H. unfold unl, count_true in *. simpl in *. lia.
  Qed.

  Lemma label_neighbours_spec comp ns : forall labels queue,
    length labels = N -> (forall n, In n ns -> n < N) ->
    exists labels' queue',
      label_neighbours els comp ns labels queue = Ok (labels', queue') /\
      length labels' = N /\
      length queue' + unl labels' = length queue + unl labels /\
      (forall i c, nth_error labels i = Some (Some c) -> nth_error labels' i = Some (Some c)) /\
      (forall i c, nth_error labels' i = Some (Some c) ->
          nth_error labels i = Some (Some c) \/
          (c = comp /\ In i ns /\ exists e, nth_error els i = Some e /\ In e queue')) /\
      (forall n, In n ns -> exists c, nth_error labels' n = Some (Some c)) /\
      (forall e, In e queue -> In e queue') /\
      (forall e, In e queue' -> In e queue \/
          exists i, nth_error labels' i = Some (Some comp) /\ nth_error els i = Some e).
  Proof.
    induction ns as [|n ns IH]; intros labels queue Hl Hns; cbn [label_neighbours].
    - exists labels, queue. repeat split; auto. intros n [].
    - assert (Hn : n < N) by (apply Hns; left; reflexivity).
      assert (Hns' : forall k, In k ns -> k < N) by (intros; apply Hns; right; assumption).
      destruct (nth_error_total labels n) as [l El]; [lia|].
      rewrite (proj2 (np_get_ok _ _ _) El). cbn [bind].
      destruct l as [c|].
      + destruct (IH labels queue Hl Hns') as (l' & q' & E & H1 & H2 & H3 & H4 & H5 & H6 & H7).
        exists l', q'. repeat split; auto.
        * intros i c' Hi. apply H4 in Hi. destruct Hi as [|(-> & Hin & He)]; [auto|].
          right; repeat split; auto; right; assumption.
        * intros k [<-|Hk]; eauto.
      + rewrite np_set_total by lia. cbn [bind].
        destruct (nth_error_total els n Hn) as [e Ee].
        rewrite (proj2 (np_get_ok _ _ _) Ee). cbn [bind].
        destruct (IH (upd labels n (Some comp)) (e :: queue)) as
          (l' & q' & E & H1 & H2 & H3 & H4 & H5 & H6 & H7); auto.
        { rewrite upd_length; assumption. }
        assert (Hnn : nth_error (upd labels n (Some comp)) n = Some (Some comp))
          by (apply nth_error_upd_eq; lia).
        exists l', q'. split; [assumption|]. split; [assumption|]. split.
        { pose proof (unl_upd labels n comp El). simpl in H2. lia. }
        split.
        { intros i c Hi. apply H3. destruct (Nat.eq_dec i n) as [->|Hin]; [congruence|].
          rewrite nth_error_upd_ne; assumption. }
        split.
        { intros i c Hi. apply H4 in Hi. destruct Hi as [Hi|(-> & Hin & He)].
          - destruct (Nat.eq_dec i n) as [->|Hin].
            + right. rewrite Hnn in Hi. injection Hi as <-. repeat split; [left; reflexivity|].
              exists e; split; [assumption|]. apply H6; left; reflexivity.
            + rewrite nth_error_upd_ne in Hi by assumption. auto.
          - right; repeat split; auto; right; assumption. }
        split.
        { intros k [<-|Hk]; [|auto]. exists comp. apply H3; assumption. }
        split.
        { intros x Hx; apply H6; right; assumption. }
        { intros x Hx. apply H7 in Hx. destruct Hx as [[<-|Hx]|Hx]; auto.
          right. exists n. split; [apply H3; assumption|assumption]. }
  Qed.

  Lemma label_vertices_spec comp vs : forall labels queue,
    length labels = N -> (forall v, In v vs -> exists i e, nth_error els i = Some e /\ In v e) ->
    exists labels' queue',
      label_vertices els m comp vs labels queue = Ok (labels', queue') /\
      length labels' = N /\
      length queue' + unl labels' = length queue + unl labels /\
      (forall i c, nth_error labels i = Some (Some c) -> nth_error labels' i = Some (Some c)) /\
      (forall i c, nth_error labels' i = Some (Some c) ->
          nth_error labels i = Some (Some c) \/
          (c = comp /\ (exists v, In v vs /\ In i (vget m v)) /\
           exists e, nth_error els i = Some e /\ In e queue')) /\
      (forall v n, In v vs -> In n (vget m v) -> exists c, nth_error labels' n = Some (Some c)) /\
      (forall e, In e queue -> In e queue') /\
      (forall e, In e queue' -> In e queue \/
          exists i, nth_error labels' i = Some (Some comp) /\ nth_error els i = Some e).
  Proof.
    induction vs as [|v vs IH]; intros labels queue Hl Hvs; cbn [label_vertices].
    - exists labels, queue. repeat split; auto. intros v n [].
    - destruct (Hvs v (or_introl eq_refl)) as (i0 & e0 & Hi0 & Hv0).
      unfold m at 1. rewrite (vmap_get_present els v i0 e0 Hi0 Hv0). fold m.
      destruct (label_neighbours_spec comp (vget m v) labels queue Hl) as
        (l1 & q1 & E1 & A1 & A2 & A3 & A4 & A5 & A6 & A7).
      { intros n Hn. apply vget_In in Hn. destruct Hn as (e & He & _). eapply nth_error_lt; eauto. }
      rewrite E1. cbn [bind].
      destruct (IH l1 q1 A1) as (l2 & q2 & E2 & B1 & B2 & B3 & B4 & B5 & B6 & B7).
      { intros; apply Hvs; right; assumption. }
      exists l2, q2. split; [assumption|]. split; [assumption|]. split; [lia|].
      split; [auto|]. split.
      { intros i c Hi. apply B4 in Hi. destruct Hi as [Hi|(-> & (w & Hw & Hiw) & He)].
        - apply A4 in Hi. destruct Hi as [Hi|(-> & Hin & e & He & Hq)]; [auto|].
          right. split; [reflexivity|]. split; [exists v; split; [left; reflexivity|assumption]|].
          eauto.
        - right. split; [reflexivity|]. split; [exists w; split; [right; assumption|assumption]|].
          assumption. }
      split.
      { intros w n [<-|Hw] Hn; [|eauto]. apply A5 in Hn. destruct Hn as [c Hc]. eauto. }
      split; [auto|].
      { intros e He. apply B7 in He. destruct He as [He|He]; [|auto].
        apply A7 in He. destruct He as [He|(i & Hi & Hei)]; [auto|]. right; eauto. }
  Qed.

  Lemma share_sym i j : share_vertex els i j -> share_vertex els j i.
  Proof. intros (a & b & v & H1 & H2 & H3 & H4); exists b, a, v; auto. Qed.

  (** closedness of the finished labels *)
  Definition closed_below (comp : nat) (labels : list (option nat)) : Prop :=
    forall i j c, nth_error labels i = Some (Some c) -> c < comp -> share_vertex els i j ->
                  nth_error labels j = Some (Some c).

  Definition linv (i0 comp : nat) (labels : list (option nat)) (queue : list row) : Prop :=
    length labels = N /\
    closed_below comp labels /\
    (forall i c, nth_error labels i = Some (Some c) -> c <= comp) /\
    nth_error labels i0 = Some (Some comp) /\
    (forall i, nth_error labels i = Some (Some comp) -> connected els i0 i) /\
    (forall i e, nth_error labels i = Some (Some comp) -> nth_error els i = Some e ->
         ~ In e queue -> forall j, share_vertex els i j -> exists c, nth_error labels j = Some (Some c)) /\
    (forall e, In e queue -> exists i, nth_error labels i = Some (Some comp) /\ nth_error els i = Some e).

  Lemma In_row_dec (e : row) q : In e q \/ ~ In e q.
  Proof. destruct (in_dec (list_eq_dec Nat.eq_dec) e q); auto. Qed.

  Lemma label_loop_spec i0 comp fuel : forall labels queue,
    linv i0 comp labels queue -> length queue + unl labels < fuel ->
    exists labels',
      label_loop fuel els m comp labels queue = Ok labels' /\
      linv i0 comp labels' [] /\
      (forall i c, nth_error labels i = Some (Some c) -> nth_error labels' i = Some (Some c)) /\
      (forall i c, nth_error labels' i = Some (Some c) ->
                   nth_error labels i = Some (Some c) \/ c = comp).
  Proof.
    induction fuel as [|fuel IH]; intros labels queue Hinv Hf; [lia|].
    cbn [label_loop]. destruct queue as [|cur rest]; [exists labels; auto|].
    destruct Hinv as (H1 & H2 & H3 & H4 & H5 & H6 & H7).
    destruct (H7 cur (or_introl eq_refl)) as (ic & Hic & Hecur).
    destruct (label_vertices_spec comp cur labels rest H1) as
      (l1 & q1 & E1 & A1 & A2 & A3 & A4 & A5 & A6 & A7).
    { intros v Hv; eauto. }
    rewrite E1. cbn [bind].
    assert (Hinv1 : linv i0 comp l1 q1).
    { split; [assumption|]. split.
      { intros i j c Hi Hc Hs. apply A4 in Hi. destruct Hi as [Hi|(-> & _)]; [|lia].
        apply A3. eapply H2; eauto. }
      split.
      { intros i c Hi. apply A4 in Hi. destruct Hi as [Hi|(-> & _)]; [eauto|lia]. }
      split; [auto|]. split.
      { intros i Hi. apply A4 in Hi. destruct Hi as [Hi|(_ & (v & Hv & Hiv) & _)]; [auto|].
        eapply rt_trans; [apply H5, Hic|]. apply rt_step.
        apply vget_In in Hiv. destruct Hiv as (e & He & Hve).
        exists cur, e, v; auto. }
      split.
      { intros i e Hi He Hnq j Hs.
        destruct (list_eq_dec Nat.eq_dec e cur) as [->|Hne].
        - destruct Hs as (a & b & v & Ha & Hb & Hva & Hvb).
          assert (a = cur) by congruence; subst. apply (A5 v); [assumption|].
          apply vget_In; eauto.
        - apply A4 in Hi. destruct Hi as [Hi|(_ & _ & e' & He' & Hq)].
          + assert (Hnr : ~ In e (cur :: rest)) by (intros [->|Hr]; [congruence|apply Hnq, A6, Hr]).
            destruct (H6 i e Hi He Hnr j Hs) as [c Hc]. eauto.
          + exfalso. apply Hnq. congruence. }
      { intros e He. apply A7 in He. destruct He as [He|He]; [|assumption].
        destruct (H7 e (or_intror He)) as (i & Hi & Hei). eauto. } }
    destruct (IH l1 q1 Hinv1) as (l2 & E2 & B1 & B2 & B3).
    { simpl in Hf. lia. }
    exists l2. split; [assumption|]. split; [assumption|]. split; [auto|].
    intros i c Hi. apply B3 in Hi. destruct Hi as [Hi|]; [|auto].
    apply A4 in Hi. tauto.
  Qed.

  Definition ainv (comp : nat) (labels : list (option nat)) : Prop :=
    length labels = N /\
    closed_below comp labels /\
    (forall i c, nth_error labels i = Some (Some c) -> c < comp) /\
    (forall c, c < comp -> exists i0, nth_error labels i0 = Some (Some c) /\
         forall i, nth_error labels i = Some (Some c) -> connected els i0 i).

  Lemma unl_le labels : unl labels <= length labels.
  Proof. unfold unl. etransitivity; [apply count_true_le|]. rewrite map_length; lia. Qed.

  Lemma label_all_spec fuel is_ : forall labels comp,
    N + 1 < fuel -> ainv comp labels -> (forall i, In i is_ -> i < N) ->
    exists labels' comp',
      label_all fuel els m is_ labels comp = Ok (labels', comp') /\
      ainv comp' labels' /\
      (forall i c, nth_error labels i = Some (Some c) -> nth_error labels' i = Some (Some c)) /\
      (forall i, In i is_ -> exists c, nth_error labels' i = Some (Some c)).
  Proof.
    induction is_ as [|i is_ IH]; intros labels comp Hf Hinv His; cbn [label_all].
    - exists labels, comp. repeat split; auto; try apply Hinv. intros i [].
    - assert (Hi : i < N) by (apply His; left; reflexivity).
      assert (His' : forall k, In k is_ -> k < N) by (intros; apply His; right; assumption).
      destruct Hinv as (H1 & H2 & H3 & H4).
      destruct (nth_error_total labels i) as [l El]; [lia|].
      rewrite (proj2 (np_get_ok _ _ _) El). cbn [bind].
      destruct l as [c|].
      + destruct (IH labels comp Hf) as (l' & c' & E & A1 & A2 & A3); auto.
        { repeat split; auto. }
        exists l', c'. split; [assumption|]. split; [assumption|]. split; [assumption|].
        intros k [<-|Hk]; eauto.
      + rewrite np_set_total by lia. cbn [bind].
        destruct (nth_error_total els i Hi) as [e Ee].
        rewrite (proj2 (np_get_ok _ _ _) Ee). cbn [bind].
        set (l1 := upd labels i (Some comp)).
        assert (Hl1i : nth_error l1 i = Some (Some comp)) by (apply nth_error_upd_eq; lia).
        assert (Hl1o : forall k, k <> i -> nth_error l1 k = nth_error labels k)
          by (intros; apply nth_error_upd_ne; assumption).
        assert (Hlinv : linv i comp l1 [e]).
        { split; [unfold l1; rewrite upd_length; assumption|]. split.
          { intros k j c Hk Hc Hs. destruct (Nat.eq_dec k i) as [->|Hki].
            - rewrite Hl1i in Hk. injection Hk as <-. lia.
            - rewrite Hl1o in Hk by assumption.
              pose proof (H2 k j c Hk Hc Hs) as Hj.
              destruct (Nat.eq_dec j i) as [->|Hji]; [congruence|].
              rewrite Hl1o; assumption. }
          split.
          { intros k c Hk. destruct (Nat.eq_dec k i) as [->|Hki].
            - rewrite Hl1i in Hk. injection Hk as <-. lia.
            - rewrite Hl1o in Hk by assumption. apply H3 in Hk. lia. }
          split; [assumption|]. split.
          { intros k Hk. destruct (Nat.eq_dec k i) as [->|Hki]; [apply rt_refl|].
            rewrite Hl1o in Hk by assumption. apply H3 in Hk. lia. }
          split.
          { intros k e' Hk He' Hne j Hs. destruct (Nat.eq_dec k i) as [->|Hki].
            - exfalso. apply Hne. left. congruence.
            - rewrite Hl1o in Hk by assumption. apply H3 in Hk. lia. }
          { intros e' [<-|[]]. eauto. } }
        destruct (label_loop_spec i comp fuel l1 [e] Hlinv) as (l2 & E2 & B1 & B2 & B3).
        { pose proof (unl_upd labels i comp El). pose proof (unl_le labels). unfold l1. simpl. lia. }
        rewrite E2. cbn [bind].
        destruct B1 as (C1 & C2 & C3 & C4 & C5 & C6 & C7).
        destruct (IH l2 (S comp) Hf) as (l3 & c3 & E3 & D1 & D2 & D3); auto.
        { split; [assumption|]. split.
          { intros k j c Hk Hc Hs. destruct (Nat.eq_dec c comp) as [->|Hcc].
            - destruct (nth_error_total els k) as [ek Hek].
              { destruct Hs as (a & _ & _ & Ha & _). eapply nth_error_lt; eauto. }
              destruct (C6 k ek Hk Hek (fun x => x) j Hs) as [c' Hc'].
              destruct (Nat.eq_dec c' comp) as [->|Hc'c]; [assumption|].
              assert (c' < comp) by (apply C3 in Hc'; lia).
              pose proof (C2 j k c' Hc' H (share_sym _ _ Hs)) as Hk'. congruence.
            - apply (C2 k); auto. lia. }
          split.
          { intros k c Hk. apply C3 in Hk. lia. }
          { intros c Hc. destruct (Nat.eq_dec c comp) as [->|Hcc].
            - exists i. split; [assumption|]. assumption.
            - destruct (H4 c) as (k0 & Hk0 & Hk0c); [lia|].
              assert (Hkeep : forall k, nth_error l2 k = Some (Some c) -> nth_error labels k = Some (Some c)).
              { intros k Hk. apply B3 in Hk. destruct Hk as [Hk|]; [|congruence].
                destruct (Nat.eq_dec k i) as [->|Hki]; [congruence|]. rewrite Hl1o in Hk; assumption. }
              exists k0. split; [|auto]. apply B2.
              destruct (Nat.eq_dec k0 i) as [->|Hki]; [congruence|]. rewrite Hl1o; assumption. } }
        exists l3, c3. split; [assumption|]. split; [assumption|]. split.
        { intros k c Hk. apply D2, B2. destruct (Nat.eq_dec k i) as [->|Hki]; [congruence|].
          rewrite Hl1o; assumption. }
        { intros k [<-|Hk]; [|auto]. exists comp. apply D2, B2, Hl1i. }
  Qed.

  (** Full description of the result. *)
  Lemma connected_elements_spec :
    exists labels ncomp,
      get_connected_elements els = Ok (map (fun c => where_label c 0 labels) (seq 0 ncomp)) /\
      length labels = N /\
      (forall i, i < N -> exists c, c < ncomp /\ nth_error labels i = Some (Some c)) /\
      (forall c, c < ncomp -> exists i, nth_error labels i = Some (Some c)) /\
      (forall i j c, nth_error labels i = Some (Some c) ->
          (nth_error labels j = Some (Some c) <-> connected els i j)).
  Proof.
    unfold get_connected_elements. fold m. fold N.
    destruct (label_all_spec (N + 2) (arange N) (repeat None N) 0) as
      (labels & ncomp & E & (H1 & H2 & H3 & H4) & _ & H5).
    - lia.
    - split; [apply repeat_length|].
      assert (Hnone : forall i c, nth_error (repeat (@None nat) N) i = Some (Some c) -> False).
      { intros i c Hi. apply nth_error_In, repeat_spec in Hi. discriminate. }
      repeat split.
      + intros i j c Hi. exfalso; eauto.
      + intros i c Hi. exfalso; eauto.
      + intros c Hc. lia.
    - intros i Hi. apply arange_In; assumption.
    - exists labels, ncomp. rewrite E. cbn [bind]. split; [reflexivity|]. split; [assumption|].
      split.
      { intros i Hi. destruct (H5 i) as [c Hc]; [apply arange_In; assumption|]. eauto. }
      split.
      { intros c Hc. destruct (H4 c Hc) as (i0 & Hi0 & _). eauto. }
      assert (Hprop : forall i j, connected els i j -> forall c,
                 nth_error labels i = Some (Some c) -> nth_error labels j = Some (Some c)).
      { intros i j Hij. induction Hij as [i j Hs|i|i j k _ IH1 _ IH2]; intros c Hc; auto.
        eapply H2; eauto. }
      assert (Hsym : forall i j, connected els i j -> connected els j i).
      { intros i j Hij. induction Hij as [i j Hs|i|i j k _ IH1 _ IH2].
        - apply rt_step, share_sym, Hs.
        - apply rt_refl.
        - eapply rt_trans; eauto. }
      intros i j c Hi. split; [|intros Hij; eapply Hprop; eauto].
      intros Hj. destruct (H4 c) as (i0 & _ & Hc); [eauto|].
      eapply rt_trans; [apply Hsym, Hc, Hi|apply Hc, Hj].
  Qed.
End Label.

Lemma NoDup_concat_labels labels l :
  NoDup l -> NoDup (concat (map (fun c => where_label c 0 labels) l)).
Proof.
  induction l as [|c l IH]; intros H; simpl; [constructor|].
  apply NoDup_cons_iff in H; destruct H as [Hc Hl].
  assert (Hdis : forall x, In x (where_label c 0 labels) ->
             ~ In x (concat (map (fun c => where_label c 0 labels) l))).
  { intros x Hx Hin. apply in_concat in Hin. destruct Hin as (p & Hp & Hxp).
    apply in_map_iff in Hp. destruct Hp as (c' & <- & Hc').
    apply where_label_In in Hx. apply where_label_In in Hxp.
    assert (c = c') by (destruct Hx as [_ Hx], Hxp as [_ Hy]; congruence). subst; contradiction. }
  specialize (IH Hl). pose proof (sorted_lt_NoDup _ (where_label_sorted c labels 0)) as Hnd.
  clear Hl Hc. induction Hnd as [|x w Hx Hnd IHw]; simpl; [assumption|].
  constructor.
  - rewrite in_app_iff. intros [H|H]; [contradiction|]. apply (Hdis x); [left; reflexivity|assumption].
  - apply IHw. intros y Hy; apply Hdis; right; assumption.
Qed.

(** Property C08. *)
Lemma connected_elements_partition els :
  exists pieces,
    get_connected_elements els = Ok pieces /\
    Permutation (concat pieces) (seq 0 (length els)) /\
    Forall (fun p => p <> []) pieces /\
    (forall p, In p pieces -> forall i j, In i p -> (In j p <-> connected els i j)).
Proof.
  destruct (connected_elements_spec els) as (labels & n & E & Hl & Hall & Hne & Hconn).
  eexists; split; [exact E|]. split; [|split].
  - apply NoDup_Permutation.
    + apply NoDup_concat_labels, seq_NoDup.
    + apply seq_NoDup.
    + intros i. rewrite in_concat, in_seq. split.
      * intros (p & Hp & Hi). apply in_map_iff in Hp. destruct Hp as (c & <- & _).
        apply where_label_In in Hi. destruct Hi as [_ Hi]. rewrite Nat.sub_0_r in Hi.
        apply nth_error_lt in Hi. lia.
      * intros Hi. destruct (Hall i) as (c & Hc & Hic); [lia|].
        exists (where_label c 0 labels). split.
        -- apply in_map_iff. exists c; split; [reflexivity|]. apply in_seq; lia.
        -- apply where_label_In. rewrite Nat.sub_0_r. split; [lia|assumption].
  - apply Forall_forall. intros p Hp. apply in_map_iff in Hp. destruct Hp as (c & <- & Hc).
    apply in_seq in Hc. destruct (Hne c) as [i Hi]; [lia|]. intros E0.
    assert (In i []) by (rewrite <- E0; apply where_label_In; rewrite Nat.sub_0_r; split; [lia|assumption]).
    contradiction.
  - intros p Hp i j Hi. apply in_map_iff in Hp. destruct Hp as (c & <- & Hc).
    apply where_label_In in Hi. destruct Hi as [_ Hi]. rewrite Nat.sub_0_r in Hi.
    rewrite where_label_In, Nat.sub_0_r. rewrite <- (Hconn i j c Hi). intuition lia.
Qed.
