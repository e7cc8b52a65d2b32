(** Facts about the connectivity map and the generic reorientation walk. *)
From Coq Require Import Permutation Relations.
From Verif Require Import Base Float64 OrientModel BaseFacts.

(** ** The vertex map *)
Definition vget (m : vmap) (v : nat) : list nat :=
  match vmap_get m v with Some l => l | None => [] end.

Lemma vmap_get_add m v i w :
  vmap_get (vmap_add m v i) w = if v =? w then Some (vget m v ++ [i]) else vmap_get m w.
Proof.
  unfold vget. induction m as [|[k l] m IH]; simpl.
  - destruct (v =? w); reflexivity.
  - destruct (Nat.eqb_spec k v) as [->|Hkv]; simpl.
    + destruct (Nat.eqb_spec v w); reflexivity.
    + rewrite IH. destruct (Nat.eqb_spec v w) as [->|Hvw]; [|reflexivity].
      destruct (Nat.eqb_spec k w) as [->|]; [congruence|reflexivity].
Qed.

Lemma vget_add m v i w : vget (vmap_add m v i) w = if v =? w then vget m w ++ [i] else vget m w.
Proof.
  unfold vget at 1. rewrite vmap_get_add. destruct (Nat.eqb_spec v w) as [->|]; reflexivity.
Qed.

Lemma vget_add_element el : forall m i w,
  vget (vmap_add_element m i el) w = vget m w ++ repeat i (count_occ Nat.eq_dec el w).
Proof.
  unfold vmap_add_element. induction el as [|v el IH]; intros m i w; simpl.
  - rewrite app_nil_r; reflexivity.
  - rewrite IH, vget_add. destruct (Nat.eq_dec v w) as [->|Hne].
    + rewrite Nat.eqb_refl. rewrite <- app_assoc. reflexivity.
    + apply Nat.eqb_neq in Hne; rewrite Hne. reflexivity.
Qed.

Lemma vmap_get_None_vget m w : vmap_get m w = None -> vget m w = [].
Proof. unfold vget; intros ->; reflexivity. Qed.

(** occurrences of vertex [v], by element *)
Fixpoint occ (n : nat) (els : list row) (v : nat) : list nat :=
  match els with
  | [] => []
  | el :: t => repeat n (count_occ Nat.eq_dec el v) ++ occ (S n) t v
  end.

Lemma vget_compute_from els : forall m n v,
  vget (compute_vertex_to_indices_from m n els) v = vget m v ++ occ n els v.
Proof.
  induction els as [|el els IH]; intros m n v; simpl; [rewrite app_nil_r; reflexivity|].
  rewrite IH, vget_add_element, app_assoc. reflexivity.
Qed.

Lemma vget_compute els v : vget (compute_vertex_to_indices els) v = occ 0 els v.
Proof. unfold compute_vertex_to_indices; rewrite vget_compute_from; reflexivity. Qed.

Lemma occ_In els : forall n v i,
  In i (occ n els v) <-> n <= i /\ exists el, nth_error els (i - n) = Some el /\ In v el.
Proof.
  induction els as [|el els IH]; intros n v i; simpl.
  - split; [tauto|]. intros (_ & el & H & _). destruct (i - n); discriminate.
  - rewrite in_app_iff, IH. split.
    + intros [H|(H & el' & H1 & H2)].
      * assert (i = n) by (eapply repeat_spec; eauto). subst. split; [lia|].
        exists el. rewrite Nat.sub_diag. split; [reflexivity|].
        apply (count_occ_In Nat.eq_dec). destruct (count_occ Nat.eq_dec el v); [contradiction|lia].
      * split; [lia|]. exists el'. replace (i - n) with (S (i - S n)) by lia. auto.
    + intros (H & el' & H1 & H2). destruct (Nat.eq_dec i n) as [->|Hne].
      * left. rewrite Nat.sub_diag in H1. injection H1 as <-.
        apply (count_occ_In Nat.eq_dec) in H2. destruct (count_occ Nat.eq_dec el v); [lia|].
        left; reflexivity.
      * right. split; [lia|]. exists el'. replace (i - n) with (S (i - S n)) in H1 by lia. auto.
Qed.

Lemma vget_In els v i :
  In i (vget (compute_vertex_to_indices els) v) <->
  exists el, nth_error els i = Some el /\ In v el.
Proof.
  rewrite vget_compute, occ_In, Nat.sub_0_r. intuition lia.
Qed.

Lemma vmap_get_present els v i el :
  nth_error els i = Some el -> In v el ->
  vmap_get (compute_vertex_to_indices els) v = Some (vget (compute_vertex_to_indices els) v).
Proof.
  intros H1 H2. unfold vget at 1.
  destruct (vmap_get (compute_vertex_to_indices els) v) eqn:E; [reflexivity|].
  exfalso. apply vmap_get_None_vget in E.
  assert (In i []) by (rewrite <- E; apply vget_In; eauto). contradiction.
Qed.

Lemma get_element_neighbours_In el keys n :
  In n (get_element_neighbours el (compute_vertex_to_indices keys)) <->
  exists k v, nth_error keys n = Some k /\ In v el /\ In v k.
Proof.
  unfold get_element_neighbours. rewrite in_flat_map. split.
  - intros (v & Hv & Hn). change (In n (vget (compute_vertex_to_indices keys) v)) in Hn.
    apply vget_In in Hn. destruct Hn as (k & Hk & Hvk). eauto.
  - intros (k & v & Hk & Hv & Hvk). exists v; split; [assumption|].
    change (In n (vget (compute_vertex_to_indices keys) v)). apply vget_In; eauto.
Qed.

Lemma get_element_neighbours_head v el k keys :
  In v k ->
  exists rest, get_element_neighbours (v :: el) (compute_vertex_to_indices (k :: keys)) = 0 :: rest.
Proof.
  intros Hv. unfold get_element_neighbours. cbn [flat_map].
  change (match vmap_get (compute_vertex_to_indices (k :: keys)) v with
          | Some l => l | None => [] end) with (vget (compute_vertex_to_indices (k :: keys)) v).
  rewrite vget_compute. cbn [occ].
  apply (count_occ_In Nat.eq_dec) in Hv. destruct (count_occ Nat.eq_dec k v); [lia|].
  cbn. eauto.
Qed.

(** ** The walk: frame, totality *)
Section Walk.
  Variable test : row -> row -> result (option bool).
  Variable flip : row -> result row.

  Section Rel.
    Variable R : row -> row -> Prop.
    Hypothesis R_refl : forall r, R r r.
    Hypothesis R_trans : forall a b c, R a b -> R b c -> R a c.
    Hypothesis R_flip : forall a b, flip a = Ok b -> R a b.

    Lemma Forall2_upd base els n b b' :
      Forall2 R base els -> nth_error els n = Some b -> R b b' -> Forall2 R base (upd els n b').
    Proof.
      intros H Hn Hb. apply Forall2_nth_error; split.
      - rewrite upd_length; eapply Forall2_length; eauto.
      - intros i x y Hx. rewrite nth_error_upd. apply Forall2_nth_error in H. destruct H as [_ H].
        destruct (Nat.eqb_spec i n) as [->|]; simpl; [|intros; eauto].
        destruct (Nat.ltb_spec n (length els)); [|intros; eauto].
        intros E; injection E as <-. eauto.
    Qed.

    Lemma reorient_neighbours_rel base ti ns : forall els oriented active els' oriented' active',
      reorient_neighbours test flip ti ns els oriented active = Ok (els', oriented', active') ->
      Forall2 R base els -> Forall2 R base els'.
    Proof.
      induction ns as [|n ns IH]; intros els oriented active els' oriented' active' H Hbase; simpl in H.
      - injection H as <- <- <-; assumption.
      - apply bind_ok in H; destruct H as (o & Ho & H). destruct o; [eauto|].
        apply bind_ok in H; destruct H as (a & Ha & H).
        apply bind_ok in H; destruct H as (b & Hb & H).
        apply bind_ok in H; destruct H as (t & Ht & H).
        destruct t as [[|]|]; [| |eauto].
        + simpl in H. inv_bind H. eapply IH; eauto.
        + apply bind_ok in H; destruct H as (els1 & He1 & H).
          apply bind_ok in He1; destruct He1 as (b' & Hb' & He1).
          apply bind_ok in H; destruct H as (o1 & Ho1 & H).
          apply np_set_ok in He1. destruct He1 as [Hlt ->].
          eapply IH; [exact H|]. 
          apply (Forall2_upd _ _ _ b); [assumption|apply np_get_ok; assumption|apply R_flip; assumption].
    Qed.

    Lemma reorient_loop_rel base m fuel : forall els oriented active els',
      reorient_loop test flip fuel m els oriented active = Ok els' ->
      Forall2 R base els -> Forall2 R base els'.
    Proof.
      induction fuel as [|fuel IH]; intros els oriented active els' H Hb; simpl in H; [discriminate|].
      destruct active as [|ti active]; [injection H as <-; assumption|].
      inv_bind H. inv_bind H. destruct a0 as [[els1 or1] ac1].
      eapply IH; [exact H|]. eapply reorient_neighbours_rel; eauto.
    Qed.
  End Rel.

  Definition unor (oriented : list bool) : nat := count_true (map negb oriented).

  Lemma unor_upd oriented n :
    nth_error oriented n = Some false -> S (unor (upd oriented n true)) = unor oriented.
  Proof.
    revert n; induction oriented as [|b oriented IH]; intros [|n] H; simpl in *; try discriminate.
    - injection H as ->. reflexivity.
    - apply IH in H. unfold unor, count_true in *. simpl in *. lia.
  Qed.

  Section Total.
    Variable P : row -> Prop.
    Hypothesis test_total : forall a b, P a -> P b -> exists t, test a b = Ok t.
    Hypothesis flip_total : forall a, P a -> exists b, flip a = Ok b /\ P b.

    Lemma Forall_upd (Q : row -> Prop) l i x : Forall Q l -> Q x -> Forall Q (upd l i x).
    Proof.
      intros H Hx. revert i; induction H as [|a l Ha H IH]; intros [|i]; simpl; constructor; auto.
    Qed.

    Lemma Forall_nth (Q : row -> Prop) l i x : Forall Q l -> nth_error l i = Some x -> Q x.
    Proof. intros H Hi. rewrite Forall_forall in H. apply H. eapply nth_error_In; eauto. Qed.

    Lemma reorient_neighbours_total ti ns : forall els oriented active,
      Forall P els -> length oriented = length els -> ti < length els ->
      (forall n, In n ns -> n < length els) ->
      exists els' oriented' active',
        reorient_neighbours test flip ti ns els oriented active = Ok (els', oriented', active') /\
        Forall P els' /\ length els' = length els /\ length oriented' = length els /\
        length active' + unor oriented' = length active + unor oriented /\
        (forall i, In i active' -> In i active \/ i < length els).
    Proof.
      induction ns as [|n ns IH]; intros els oriented active HP Ho Hti Hns; simpl.
      - exists els, oriented, active. repeat split; auto.
      - assert (Hn : n < length els) by (apply Hns; left; reflexivity).
        destruct (nth_error_total oriented n) as [o Eo]; [lia|].
        rewrite (proj2 (np_get_ok _ _ _) Eo). cbn [bind].
        assert (Hns' : forall k, In k ns -> k < length els) by (intros; apply Hns; right; assumption).
        destruct o; [apply IH; auto|].
        destruct (nth_error_total els ti Hti) as [a Ea].
        rewrite (proj2 (np_get_ok _ _ _) Ea). cbn [bind].
        destruct (nth_error_total els n Hn) as [b Eb].
        rewrite (proj2 (np_get_ok _ _ _) Eb). cbn [bind].
        destruct (test_total a b (Forall_nth _ _ _ _ HP Ea) (Forall_nth _ _ _ _ HP Eb)) as [t Et].
        rewrite Et. cbn [bind]. destruct t as [same|]; [|apply IH; auto].
        assert (Hex : exists els1, (if same then Ok els else b' <- flip b;; np_set els n b') = Ok els1
                        /\ Forall P els1 /\ length els1 = length els).
        { destruct same; [eauto|].
          destruct (flip_total b (Forall_nth _ _ _ _ HP Eb)) as (b' & Eb' & Hb').
          rewrite Eb'. cbn [bind]. rewrite np_set_total by assumption.
          eexists; split; [reflexivity|]. split; [apply Forall_upd; assumption|apply upd_length]. }
        destruct Hex as (els1 & -> & HP1 & Hl1). cbn [bind].
        rewrite np_set_total by lia. cbn [bind].
        destruct (IH els1 (upd oriented n true) (n :: active)) as
          (els' & or' & ac' & E & HP' & Hl' & Ho' & Hm & Hac); auto.
        { rewrite upd_length; lia. } { lia. } { intros; rewrite Hl1; auto. }
        exists els', or', ac'. rewrite E. repeat split; auto; try lia.
        + pose proof (unor_upd _ _ Eo). simpl in Hm. lia.
        + intros i Hi. apply Hac in Hi. rewrite Hl1 in Hi. simpl in Hi. intuition (subst; auto).
    Qed.

    Lemma reorient_loop_total m keys fuel : forall els oriented active,
      m = compute_vertex_to_indices keys -> length keys = length els ->
      Forall P els -> length oriented = length els ->
      (forall i, In i active -> i < length els) ->
      length active + unor oriented < fuel ->
      exists els', reorient_loop test flip fuel m els oriented active = Ok els'.
    Proof.
      induction fuel as [|fuel IH]; intros els oriented active Hm Hk HP Ho Hac Hf; [lia|].
      simpl. destruct active as [|ti active]; [eauto|].
      assert (Hti : ti < length els) by (apply Hac; left; reflexivity).
      destruct (nth_error_total els ti Hti) as [e Ee].
      rewrite (proj2 (np_get_ok _ _ _) Ee). cbn [bind].
      destruct (reorient_neighbours_total ti (get_element_neighbours e m) els oriented active)
        as (els' & or' & ac' & E & HP' & Hl' & Ho' & Hms & Hac'); auto.
      { intros n Hn. subst m. apply get_element_neighbours_In in Hn.
        destruct Hn as (k & v & Hn & _). apply nth_error_lt in Hn. lia. }
      rewrite E. cbn [bind]. apply IH; auto; try lia.
      - intros i Hi. rewrite Hl'. apply Hac' in Hi. destruct Hi; [apply Hac; right|]; assumption.
      - simpl in Hf. lia.
    Qed.
  End Total.

  (** ** Consistency *)
  Section Consistent.
    Variable N : nat.
    Variable m : vmap.
    (** [sd false i] and [sd true i] are the two directions of element [i]; a set of
        elements is consistent when all are on the same side. *)
    Variable sd : bool -> nat -> row.
    (** [edge i n]: the test compares [i] with [n]. *)
    Variable edge : nat -> nat -> Prop.
    Hypothesis edge_dec : forall i n, edge i n \/ ~ edge i n.
    Hypothesis flip_sd : forall b i, i < N -> flip (sd b i) = Ok (sd (negb b) i).
    Hypothesis nb_lt : forall b i n, i < N -> In n (get_element_neighbours (sd b i) m) -> n < N.
    Hypothesis nb_edge : forall b i n, i < N -> n < N -> i <> n -> edge i n ->
      In n (get_element_neighbours (sd b i) m).
    Hypothesis nb_side : forall a b i n, i < N ->
      In n (get_element_neighbours (sd a i) m) -> In n (get_element_neighbours (sd b i) m).
    Hypothesis nb_head : forall b, exists rest, get_element_neighbours (sd b 0) m = 0 :: rest.
    Hypothesis test_self : forall b, exists t, test (sd b 0) (sd b 0) = Ok (Some t).
    Hypothesis test_edge : forall a b i n, i < N -> n < N -> i <> n -> edge i n ->
      test (sd a i) (sd b n) = Ok (Some (Bool.eqb a b)).
    Hypothesis test_nonedge : forall a b i n, i < N -> n < N -> i <> n -> ~ edge i n ->
      In n (get_element_neighbours (sd a i) m) -> test (sd a i) (sd b n) = Ok None.

    Definition sided (els : list row) : Prop :=
      length els = N /\ forall i, i < N -> exists b, nth_error els i = Some (sd b i).

    Definition agree (s : bool) (els : list row) (oriented : list bool) : Prop :=
      forall i, nth_error oriented i = Some true -> nth_error els i = Some (sd s i).

    Lemma neighbours_consistent s ti ns : forall els oriented active,
      ti < N -> sided els -> length oriented = N -> agree s els oriented ->
      nth_error oriented ti = Some true ->
      (forall n, In n ns -> n < N /\ In n (get_element_neighbours (sd s ti) m)) ->
      exists els' oriented' active',
        reorient_neighbours test flip ti ns els oriented active = Ok (els', oriented', active') /\
        sided els' /\ length oriented' = N /\ agree s els' oriented' /\
        (forall i, nth_error oriented i = Some true -> nth_error oriented' i = Some true) /\
        (forall n, In n ns -> n <> ti -> edge ti n -> nth_error oriented' n = Some true) /\
        (forall i, nth_error oriented' i = Some true ->
                   nth_error oriented i = Some true \/ In i active') /\
        (forall i, In i active -> In i active') /\
        (forall i, In i active' -> In i active \/ nth_error oriented' i = Some true).
    Proof.
      induction ns as [|n ns IH]; intros els oriented active Hti Hsd Hlo Hag Hor Hns; cbn [reorient_neighbours].
      - exists els, oriented, active. repeat split; auto; try apply Hsd. intros n [].
      - destruct (Hns n (or_introl eq_refl)) as [Hn Hnin].
        assert (Hns' : forall k, In k ns -> k < N /\ In k (get_element_neighbours (sd s ti) m))
          by (intros; apply Hns; right; assumption).
        destruct (nth_error_total oriented n) as [o Eo]; [lia|].
        rewrite (proj2 (np_get_ok _ _ _) Eo). cbn [bind].
        destruct o.
        { destruct (IH els oriented active) as (e' & o' & a' & E & H1 & H2 & H3 & H4 & H5 & H6 & H7 & H8); auto.
          exists e', o', a'. repeat split; auto; try apply H1.
          intros k [<-|Hk]; auto. }
        assert (Hne : ti <> n) by (intros ->; congruence).
        rewrite (proj2 (np_get_ok _ _ _) (Hag _ Hor)). cbn [bind].
        destruct Hsd as [Hle Hsd]. destruct (Hsd n Hn) as [b Eb].
        rewrite (proj2 (np_get_ok _ _ _) Eb). cbn [bind].
        destruct (edge_dec ti n) as [He|He].
        2:{ rewrite test_nonedge by auto. cbn [bind].
            destruct (IH els oriented active) as (e' & o' & a' & E & H1 & H2 & H3 & H4 & H5 & H6 & H7 & H8);
              auto; [split; auto|].
            exists e', o', a'. repeat split; auto; try apply H1.
            intros k [<-|Hk]; [tauto|auto]. }
        rewrite test_edge by auto. cbn [bind].
        assert (Hex : exists els1,
          (if Bool.eqb s b then Ok els else b' <- flip (sd b n) ;; np_set els n b') = Ok els1 /\
          sided els1 /\ nth_error els1 n = Some (sd s n) /\
          (forall i, i <> n -> nth_error els1 i = nth_error els i)).
        { destruct (Bool.eqb s b) eqn:Es.
          - apply Bool.eqb_prop in Es; subst. exists els; repeat split; auto.
          - apply Bool.eqb_false_iff in Es.
            assert (negb b = s) as Hs by (destruct s, b; simpl; congruence).
            rewrite flip_sd by assumption. cbn [bind]. rewrite np_set_total by lia.
            rewrite Hs. eexists; split; [reflexivity|]. repeat split.
            + rewrite upd_length; assumption.
            + intros i Hi. destruct (Nat.eq_dec i n) as [->|Hin].
              * rewrite nth_error_upd_eq by lia. eauto.
              * rewrite nth_error_upd_ne by assumption. auto.
            + apply nth_error_upd_eq; lia.
            + intros; apply nth_error_upd_ne; assumption. }
        destruct Hex as (els1 & -> & Hsd1 & Hn1 & Hoth). cbn [bind].
        rewrite np_set_total by lia. cbn [bind].
        destruct (IH els1 (upd oriented n true) (n :: active)) as
          (e' & o' & a' & E & H1 & H2 & H3 & H4 & H5 & H6 & H7 & H8); auto.
        { rewrite upd_length; assumption. }
        { intros i Hi. destruct (Nat.eq_dec i n) as [->|Hin]; [assumption|].
          rewrite nth_error_upd_ne in Hi by assumption. rewrite Hoth by assumption. auto. }
        { rewrite nth_error_upd_ne by auto. assumption. }
        exists e', o', a'. rewrite E.
        assert (Hnup : nth_error (upd oriented n true) n = Some true)
          by (apply nth_error_upd_eq; lia).
        split; [reflexivity|]. split; [assumption|]. split; [assumption|]. split; [assumption|].
        split.
        { intros i Hi. apply H4. destruct (Nat.eq_dec i n) as [->|Hin]; [assumption|].
          rewrite nth_error_upd_ne by assumption. assumption. }
        split.
        { intros k [<-|Hk]; auto. }
        split.
        { intros i Hi. apply H6 in Hi. destruct Hi as [Hi|Hi]; [|auto].
          destruct (Nat.eq_dec i n) as [->|Hin]; [right; apply H7; left; reflexivity|].
          rewrite nth_error_upd_ne in Hi by assumption. auto. }
        split.
        { intros i Hi. apply H7; right; assumption. }
        { intros i Hi. apply H8 in Hi. destruct Hi as [[<-|Hi]|Hi]; auto. }
    Qed.

    Definition winv (s : bool) (els : list row) (oriented : list bool) (active : list nat) : Prop :=
      sided els /\ length oriented = N /\ agree s els oriented /\
      nth_error oriented 0 = Some true /\
      (forall i, In i active -> nth_error oriented i = Some true) /\
      (forall i n, nth_error oriented i = Some true -> ~ In i active ->
                   n < N -> i <> n -> edge i n -> nth_error oriented n = Some true).

    Lemma loop_consistent s fuel : forall els oriented active els',
      winv s els oriented active ->
      reorient_loop test flip fuel m els oriented active = Ok els' ->
      exists oriented', winv s els' oriented' [].
    Proof.
      induction fuel as [|fuel IH]; intros els oriented active els' Hw H; simpl in H; [discriminate|].
      destruct active as [|ti active]; [injection H as <-; eauto|].
      destruct Hw as (Hsd & Hlo & Hag & H0 & Hac & Hcl).
      assert (Hoti : nth_error oriented ti = Some true) by (apply Hac; left; reflexivity).
      assert (Hti : ti < N) by (rewrite <- Hlo; eapply nth_error_lt; eauto).
      rewrite (proj2 (np_get_ok _ _ _) (Hag _ Hoti)) in H. cbn [bind] in H.
      destruct (neighbours_consistent s ti (get_element_neighbours (sd s ti) m) els oriented active)
        as (e' & o' & a' & E & H1 & H2 & H3 & H4 & H5 & H6 & H7 & H8); auto.
      { intros n Hn; split; [eapply nb_lt; eauto|assumption]. }
      rewrite E in H. cbn [bind] in H. eapply IH; [|exact H].
      split; [assumption|]. split; [assumption|]. split; [assumption|]. split; [auto|].
      split.
      { intros i Hi. apply H8 in Hi. destruct Hi as [Hi|Hi]; [|assumption].
        apply H4, Hac; right; assumption. }
      { intros i n Hi Hni Hn Hne He.
        destruct (Nat.eq_dec i ti) as [->|Hit].
        - apply H5; auto.
        - apply H4. apply (Hcl i); auto.
          + apply H6 in Hi. tauto.
          + intros [->|Hin]; [congruence|]. apply Hni, H7, Hin. }
    Qed.

    (** elements reachable from element 0 *)
    Inductive reach : nat -> Prop :=
      | reach_0 : reach 0
      | reach_step i n : reach i -> n < N -> i <> n -> edge i n -> reach n.

    Lemma walk_consistent fuel els els' :
      0 < N -> sided els ->
      reorient_loop test flip (S fuel) m els (repeat false N) [0] = Ok els' ->
      exists s, sided els' /\ forall i, i < N -> reach i -> nth_error els' i = Some (sd s i).
    Proof.
      intros HN Hsd H.
      destruct (proj2 Hsd 0 HN) as [b0 Eb0].
      cbn [reorient_loop] in H.
      rewrite (proj2 (np_get_ok _ _ _) Eb0) in H. cbn [bind] in H.
      destruct (nb_head b0) as [rest Hrest]. rewrite Hrest in H.
      assert (Hlo : length (repeat false N) = N) by apply repeat_length.
      assert (E0 : nth_error (repeat false N) 0 = Some false)
        by (destruct N; [lia|reflexivity]).
      cbn [reorient_neighbours] in H.
      rewrite (proj2 (np_get_ok _ _ _) E0) in H. cbn [bind] in H.
      rewrite (proj2 (np_get_ok _ _ _) Eb0) in H. cbn [bind] in H.
      destruct (test_self b0) as [t0 Et0]. rewrite Et0 in H. cbn [bind] in H.
      set (s := if t0 then b0 else negb b0).
      assert (Hex : exists els1,
          (if t0 then Ok els else b' <- flip (sd b0 0) ;; np_set els 0 b') = Ok els1 /\
          sided els1 /\ nth_error els1 0 = Some (sd s 0)).
      { destruct Hsd as [Hle Hsd]. destruct t0; unfold s.
        - exists els; repeat split; auto.
        - rewrite flip_sd by assumption. cbn [bind]. rewrite np_set_total by lia.
          eexists; split; [reflexivity|]. repeat split.
          + rewrite upd_length; assumption.
          + intros i Hi. destruct (Nat.eq_dec i 0) as [->|Hin].
            * rewrite nth_error_upd_eq by lia. eauto.
            * rewrite nth_error_upd_ne by assumption. auto.
          + apply nth_error_upd_eq; lia. }
      destruct Hex as (els1 & Hels1 & Hsd1 & Hel0). rewrite Hels1 in H. cbn [bind] in H.
      rewrite np_set_total in H by (rewrite Hlo; assumption). cbn [bind] in H.
      set (or1 := upd (repeat false N) 0 true) in *.
      assert (Hor1 : forall i, nth_error or1 i = Some true -> i = 0).
      { intros i Hi. unfold or1 in Hi. destruct (Nat.eq_dec i 0); [assumption|].
        rewrite nth_error_upd_ne in Hi by assumption.
        apply nth_error_In, repeat_spec in Hi. discriminate. }
      assert (Hor10 : nth_error or1 0 = Some true)
        by (unfold or1; apply nth_error_upd_eq; rewrite Hlo; assumption).
      destruct (neighbours_consistent s 0 rest els1 or1 [0])
        as (e' & o' & a' & E & H1 & H2 & H3 & H4 & H5 & H6 & H7 & H8); auto.
      { unfold or1; rewrite upd_length; assumption. }
      { intros i Hi. apply Hor1 in Hi. subst; assumption. }
      { intros n Hn.
        assert (Hin : forall b, In n (get_element_neighbours (sd b 0) m) -> n < N)
          by (intros; eapply nb_lt; eauto).
        assert (Hnb0 : In n (get_element_neighbours (sd b0 0) m)) by (rewrite Hrest; right; assumption).
        split; [eauto|].
        apply (nb_side b0); assumption. }
      rewrite E in H. cbn [bind] in H.
      destruct (loop_consistent s fuel e' o' a' els') as [o2 Hw]; [|exact H|].
      - split; [assumption|]. split; [assumption|]. split; [assumption|].
        split; [auto|]. split.
        + intros i Hi. apply H8 in Hi. destruct Hi as [[<-|[]]|Hi]; auto.
        + intros i n Hi Hni. exfalso. apply H6 in Hi. destruct Hi as [Hi|Hi]; [|auto].
          apply Hor1 in Hi. subst. apply Hni, H7. left; reflexivity.
      - exists s. destruct Hw as (Hs2 & Hl2 & Hag2 & H02 & _ & Hcl2). split; [assumption|].
        intros i Hi Hr. apply Hag2.
        clear Hi. induction Hr as [|i n Hr IHr Hn Hne He]; [assumption|].
        apply (Hcl2 i); auto.
    Qed.
  End Consistent.
End Walk.
