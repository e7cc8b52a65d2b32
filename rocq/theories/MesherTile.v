(** The quads of the mesher never overlap; when no side that was left long is split later they
    cover the parameter rectangle; and the triangles of a quad tile it. *)
From Coq Require Import Reals Lra Psatz Permutation.
From Verif Require Import Base BaseFacts MesherModel MesherFacts MesherRun MesherSpec.
Local Open Scope R_scope.

(** [ForallOrdPairs] *)
Section FOP.
  Context {A : Type} (R : A -> A -> Prop).
  Lemma FOP_app l m : ForallOrdPairs R (l ++ m) <->
    ForallOrdPairs R l /\ ForallOrdPairs R m /\ (forall a b, In a l -> In b m -> R a b).
  Proof.
    induction l as [|a l IH]; cbn [app].
    - split; [intros H; repeat split; [constructor|exact H|intros a b []]|tauto].
    - split.
      + intros H. inversion H as [|? ? H1 H2]; subst. apply IH in H2. destruct H2 as (A1 & A2 & A3).
        apply Forall_app in H1. destruct H1 as (B1 & B2). repeat split; [constructor; assumption|exact A2|].
        intros x b [->|Hx] Hb; [rewrite Forall_forall in B2; apply B2, Hb|apply A3; assumption].
      + intros (H1 & H2 & H3). inversion H1; subst. constructor.
        * apply Forall_app. split; [assumption|]. apply Forall_forall. intros b Hb. apply H3; [left; reflexivity|exact Hb].
        * apply IH. repeat split; [assumption|exact H2|]. intros x b Hx Hb. apply H3; [right; exact Hx|exact Hb].
  Qed.
  Lemma FOP_perm l m : (forall a b, R a b -> R b a) -> Permutation l m -> ForallOrdPairs R l -> ForallOrdPairs R m.
  Proof.
    intros Hs. induction 1 as [|a l m Hp IH|a b l|l m n H1 IH1 H2 IH2]; intros H.
    - exact H.
    - inversion H; subst. constructor; [|apply IH; assumption]. eapply Permutation_Forall; eassumption.
    - inversion H as [|? ? Ha Hl]; subst. inversion Hl; subst. inversion Ha; subst.
      constructor; [constructor; [apply Hs; assumption|assumption]|constructor; assumption].
    - auto.
  Qed.
  Lemma FOP_concat ll : Forall (ForallOrdPairs R) ll ->
    ForallOrdPairs (fun l m => forall a b, In a l -> In b m -> R a b) ll -> ForallOrdPairs R (concat ll).
  Proof.
    induction ll as [|l ll IH]; intros H1 H2; [constructor|]. cbn [concat]. inversion H1; subst. inversion H2; subst.
    apply FOP_app. split; [assumption|]. split; [apply IH; assumption|].
    intros a b Ha Hb. apply in_concat in Hb. destruct Hb as (m & Hm & Hb).
    match goal with H : Forall _ ll |- _ => rewrite Forall_forall in H; apply (H m Hm) end; assumption.
  Qed.
End FOP.
Lemma FOP_map {A B} (f : A -> B) (R : B -> B -> Prop) l :
  ForallOrdPairs (fun a b => R (f a) (f b)) l -> ForallOrdPairs R (map f l).
Proof. induction 1; cbn [map]; constructor; [apply Forall_map; assumption|assumption]. Qed.
Lemma FOP_impl {A} (R S : A -> A -> Prop) l : (forall a b, R a b -> S a b) -> ForallOrdPairs R l -> ForallOrdPairs S l.
Proof. intros H. induction 1; constructor; [eapply Forall_impl; [apply H|assumption]|assumption]. Qed.
Lemma FOP_seq s n : ForallOrdPairs lt (seq s n).
Proof.
  revert s. induction n as [|n IH]; intros s; cbn [seq]; constructor; [|apply IH].
  apply Forall_forall. intros x Hx. apply in_seq in Hx. lia.
Qed.

(** cells of a quad, in units of the section: 0 <= X <= 1, 0 <= Y <= 1 *)
Definition pw (d : nat) : R := 2 ^ d.
Definition open_cell (q : quad) (X Y : R) : Prop :=
  INR (qi0 q) < X * pw (qd q) < INR (qi1 q) /\ INR (qj0 q) < Y * pw (qd q) < INR (qj1 q).
Definition closed_cell (q : quad) (X Y : R) : Prop :=
  INR (qi0 q) <= X * pw (qd q) <= INR (qi1 q) /\ INR (qj0 q) <= Y * pw (qd q) <= INR (qj1 q).
Definition disj (q q' : quad) : Prop := forall X Y, ~ (open_cell q X Y /\ open_cell q' X Y).
Lemma disj_sym q q' : disj q q' -> disj q' q.
Proof. intros H X Y (A & B). apply (H X Y). split; assumption. Qed.

Lemma pw_S d : pw (S d) = 2 * pw d.
Proof. reflexivity. Qed.
Lemma pw_pos d : 0 < pw d.
Proof. apply pow_lt. lra. Qed.
Lemma INR_pow d : INR (2 ^ d) = pw d.
Proof. rewrite pow_INR. reflexivity. Qed.

Ltac cells := rewrite ?plus_INR, ?mult_INR; change (INR 2) with 2; change (INR 1) with 1; change (INR 0) with 0.

Lemma split_inside q h v children c X Y :
  wfq q -> split q h v = Some children -> In c children -> open_cell c X Y -> open_cell q X Y.
Proof.
  intros (W1 & _ & W3 & _) Hs Hin. apply le_INR in W1, W3. rewrite S_INR in W1, W3.
  destruct h, v; cbn [split] in Hs; try discriminate; injection Hs as <-; cbn [In] in Hin;
    repeat destruct Hin as [<-|Hin]; try destruct Hin;
    unfold open_cell; cbn [qd qi0 qi1 qj0 qj1]; rewrite pw_S; cells;
    intros (H1 & H2); repeat split; lra.
Qed.
Lemma split_disj q h v children : split q h v = Some children -> ForallOrdPairs disj children.
Proof.
  intros Hs. destruct h, v; cbn [split] in Hs; try discriminate; injection Hs as <-;
    repeat constructor; intros X Y;
    unfold open_cell; cbn [qd qi0 qi1 qj0 qj1]; rewrite pw_S; cells;
    intros ((A & B) & (C & D)); lra.
Qed.
Lemma split_covers q h v children X Y :
  wfq q -> split q h v = Some children -> (h = true -> qj1 q = qj0 q + 1)%nat -> (v = true -> qi1 q = qi0 q + 1)%nat ->
  closed_cell q X Y -> exists c, In c children /\ closed_cell c X Y.
Proof.
  intros W Hs Hh Hv (A & B).
  destruct h; [specialize (Hh eq_refl); rewrite Hh, plus_INR in B; simpl (INR 1) in B|];
  (destruct v; [specialize (Hv eq_refl); rewrite Hv, plus_INR in A; simpl (INR 1) in A|]);
  cbn [split] in Hs; try discriminate; injection Hs as <-.
  - destruct (Rle_dec (X * pw (qd q)) (INR (qi0 q) + 1/2)) as [HX|HX];
    destruct (Rle_dec (Y * pw (qd q)) (INR (qj0 q) + 1/2)) as [HY|HY]; eexists.
    + split; [right; right; right; left; reflexivity|].
      unfold closed_cell; cbn [qd qi0 qi1 qj0 qj1]; rewrite pw_S; cells; repeat split; lra.
    + split; [right; right; left; reflexivity|].
      unfold closed_cell; cbn [qd qi0 qi1 qj0 qj1]; rewrite pw_S; cells; repeat split; lra.
    + split; [right; left; reflexivity|].
      unfold closed_cell; cbn [qd qi0 qi1 qj0 qj1]; rewrite pw_S; cells; repeat split; lra.
    + split; [left; reflexivity|].
      unfold closed_cell; cbn [qd qi0 qi1 qj0 qj1]; rewrite pw_S; cells; repeat split; lra.
  - destruct (Rle_dec (Y * pw (qd q)) (INR (qj0 q) + 1/2)) as [HY|HY]; eexists.
    + split; [right; left; reflexivity|].
      unfold closed_cell; cbn [qd qi0 qi1 qj0 qj1]; rewrite pw_S; cells; repeat split; lra.
    + split; [left; reflexivity|].
      unfold closed_cell; cbn [qd qi0 qi1 qj0 qj1]; rewrite pw_S; cells; repeat split; lra.
  - destruct (Rle_dec (X * pw (qd q)) (INR (qi0 q) + 1/2)) as [HX|HX]; eexists.
    + split; [right; left; reflexivity|].
      unfold closed_cell; cbn [qd qi0 qi1 qj0 qj1]; rewrite pw_S; cells; repeat split; lra.
    + split; [left; reflexivity|].
      unfold closed_cell; cbn [qd qi0 qi1 qj0 qj1]; rewrite pw_S; cells; repeat split; lra.
Qed.

(** an invariant of the collection of all quads, finished or not *)
Section Invariant.
  Variable dec : quad -> result (bool * bool).
  Variable I : list quad -> Prop.
  Hypothesis I_perm : forall l m, Permutation l m -> I l -> I m.
  Hypothesis I_split : forall q rest h v children,
    dec q = Ok (h, v) -> split q h v = Some children -> I (q :: rest) -> I (children ++ rest).
  Lemma refine_inv fuel : forall todo extra quads out,
    refine fuel dec todo quads = Ok out -> I (todo ++ extra ++ quads) -> I (extra ++ out).
  Proof.
    induction fuel as [|fuel IH]; intros todo extra quads out H HI; destruct todo as [|q rest]; cbn [refine] in H;
      try discriminate; try (injection H as <-; exact HI).
    destruct (dec q) as [(h, v)|e] eqn:Ed; [|discriminate]. cbn [bind] in H.
    destruct (split q h v) as [children|] eqn:Es.
    - apply (IH _ extra) in H; [exact H|]. rewrite <- app_assoc. eapply I_split; [exact Ed|exact Es|exact HI].
    - apply (IH _ extra) in H; [exact H|]. eapply I_perm; [|exact HI].
      cbn [app]. rewrite !app_assoc. apply Permutation_cons_append.
  Qed.
  Lemma refine_all_inv fuel : forall starts quads out,
    refine_all fuel dec starts quads = Ok out -> I (starts ++ quads) -> I out.
  Proof.
    induction starts as [|q rest IH]; intros quads out H HI; cbn [refine_all] in H.
    - injection H as <-. exact HI.
    - apply bind_ok in H. destruct H as (q1 & H1 & H). apply IH in H; [exact H|].
      eapply refine_inv; [exact H1|]. exact HI.
  Qed.
End Invariant.

Lemma start_disj sd : ForallOrdPairs disj (start_quads sd).
Proof.
  unfold start_quads. rewrite flat_map_concat_map. apply FOP_concat.
  - apply Forall_map, Forall_forall. intros i _. apply FOP_map. eapply FOP_impl; [|apply FOP_seq].
    intros j j' Hj X Y. unfold open_cell. cbn [qd qi0 qi1 qj0 qj1]. apply le_INR in Hj. rewrite S_INR in Hj.
    rewrite !plus_INR. simpl (INR 1). intros ((_ & A) & (_ & B)). lra.
  - apply FOP_map. eapply FOP_impl; [|apply FOP_seq]. intros i i' Hi a b Ha Hb.
    apply in_map_iff in Ha, Hb. destruct Ha as (j & <- & _), Hb as (j' & <- & _). intros X Y.
    unfold open_cell. cbn [qd qi0 qi1 qj0 qj1]. apply le_INR in Hi. rewrite S_INR in Hi. rewrite !plus_INR. simpl (INR 1).
    intros ((A & _) & (B & _)). lra.
Qed.
Lemma floor_cell (x : R) (n : nat) : (0 < n)%nat -> 0 <= x <= INR n ->
  exists i, (i < n)%nat /\ INR i <= x <= INR i + 1.
Proof.
  intros Hn. induction n as [|n IH]; [lia|]. intros Hx. destruct (Rle_dec x (INR n)) as [H|H].
  - destruct n as [|n].
    + exists 0%nat. split; [lia|]. simpl in *. lra.
    + destruct (IH ltac:(lia) ltac:(lra)) as (i & Hi & Hc). exists i. split; [lia|exact Hc].
  - exists n. split; [lia|]. rewrite S_INR in Hx. lra.
Qed.
Lemma start_covers sd X Y : 0 <= X <= 1 -> 0 <= Y <= 1 -> exists q, In q (start_quads sd) /\ closed_cell q X Y.
Proof.
  intros HX HY. pose proof (pw_pos sd) as Hp.
  assert (Hn : (0 < 2 ^ sd)%nat) by (pose proof (Nat.pow_nonzero 2 sd); lia).
  destruct (floor_cell (X * pw sd) (2 ^ sd) Hn) as (i & Hi & Ci); [rewrite INR_pow; nra|].
  destruct (floor_cell (Y * pw sd) (2 ^ sd) Hn) as (j & Hj & Cj); [rewrite INR_pow; nra|].
  exists (mkquad sd i (i + 1) j (j + 1)). split.
  - unfold start_quads, number_of_indices. rewrite Nat.add_sub. apply in_flat_map. exists i. split; [apply in_seq; lia|].
    apply in_map_iff. exists j. split; [reflexivity|apply in_seq; lia].
  - unfold closed_cell. cbn [qd qi0 qi1 qj0 qj1]. rewrite !plus_INR. simpl (INR 1). split; assumption.
Qed.

(** the finished quads never overlap *)
Lemma quads_disj dec fuel sd out : refine_all fuel dec (start_quads sd) [] = Ok out ->
  ForallOrdPairs disj out /\ Forall wfq out.
Proof.
  intros H. apply (refine_all_inv dec (fun l => ForallOrdPairs disj l /\ Forall wfq l)) in H.
  - exact H.
  - intros l m Hp (A & B). split; [eapply FOP_perm; [apply disj_sym|exact Hp|exact A]|eapply Permutation_Forall; eassumption].
  - intros q rest h v children _ Es (A & B). inversion A as [|? ? A1 A2]; subst. inversion B as [|? ? B1 B2]; subst. split.
    + apply FOP_app. split; [eapply split_disj; exact Es|]. split; [exact A2|].
      intros c r Hc Hr X Y (C1 & C2). rewrite Forall_forall in A1. apply (A1 r Hr X Y). split; [|exact C2].
      eapply split_inside; eassumption.
    + apply Forall_app. split; [eapply split_wf; eassumption|exact B2].
  - rewrite app_nil_r. split; [apply start_disj|]. eapply Forall_impl; [|apply start_wf]. cbv beta. tauto.
Qed.

(** they cover the rectangle when an invariant of quads keeps long sides from being split *)
Lemma quads_cover dec (K : quad -> Prop) fuel sd out :
  (forall q, In q (start_quads sd) -> K q) ->
  (forall q h v children, wfq q -> K q -> dec q = Ok (h, v) -> split q h v = Some children ->
     (h = true -> qj1 q = qj0 q + 1)%nat /\ (v = true -> qi1 q = qi0 q + 1)%nat /\ Forall K children) ->
  refine_all fuel dec (start_quads sd) [] = Ok out ->
  Forall K out /\ forall X Y, 0 <= X <= 1 -> 0 <= Y <= 1 -> exists q, In q out /\ closed_cell q X Y.
Proof.
  intros Hstart Hstep H.
  apply (refine_all_inv dec (fun l => Forall wfq l /\ Forall K l /\
      forall X Y, 0 <= X <= 1 -> 0 <= Y <= 1 -> exists q, In q l /\ closed_cell q X Y)) in H.
  - tauto.
  - intros l m Hp (A & B & C). split; [eapply Permutation_Forall; eassumption|]. split; [eapply Permutation_Forall; eassumption|].
    intros X Y HX HY. destruct (C X Y HX HY) as (q & Hq & Hc). exists q. split; [eapply Permutation_in; eassumption|exact Hc].
  - intros q rest h v children Ed Es (A & B & C). inversion A as [|? ? A1 A2]; subst. inversion B as [|? ? B1 B2]; subst.
    destruct (Hstep q h v children A1 B1 Ed Es) as (S1 & S2 & S3).
    split; [apply Forall_app; split; [eapply split_wf; eassumption|exact A2]|].
    split; [apply Forall_app; split; assumption|].
    intros X Y HX HY. destruct (C X Y HX HY) as (r & [<-|Hr] & Hc).
    + destruct (split_covers q h v children X Y A1 Es S1 S2 Hc) as (c & Hin & Hcc). exists c. split; [apply in_or_app; left; exact Hin|exact Hcc].
    + exists r. split; [apply in_or_app; right; exact Hr|exact Hc].
  - rewrite app_nil_r. split; [eapply Forall_impl; [|apply start_wf]; cbv beta; tauto|].
    split; [apply Forall_forall; exact Hstart|]. intros X Y. apply start_covers.
Qed.

(** scaling to the final depth does not change the cell *)
Lemma scale_open depth q X Y : (qd q <= depth)%nat -> open_cell (scale_quad depth q) X Y <-> open_cell q X Y.
Proof.
  intros Hd. unfold open_cell, scale_quad. cbn [qd qi0 qi1 qj0 qj1].
  replace (Nat.max depth (qd q)) with depth by lia. rewrite !mult_INR, INR_pow.
  set (f := pw (depth - qd q)). assert (Hf : 0 < f) by apply pw_pos.
  assert (E : pw depth = f * pw (qd q)) by (unfold f, pw; rewrite <- pow_add; f_equal; lia). rewrite E.
  replace (X * (f * pw (qd q))) with (f * (X * pw (qd q))) by ring.
  replace (Y * (f * pw (qd q))) with (f * (Y * pw (qd q))) by ring.
  split; intros ((A & B) & (C & D)); repeat split; try (apply Rmult_lt_reg_l with f; assumption); apply Rmult_lt_compat_l; assumption.
Qed.
Lemma scale_closed depth q X Y : (qd q <= depth)%nat -> closed_cell (scale_quad depth q) X Y <-> closed_cell q X Y.
Proof.
  intros Hd. unfold closed_cell, scale_quad. cbn [qd qi0 qi1 qj0 qj1].
  replace (Nat.max depth (qd q)) with depth by lia. rewrite !mult_INR, INR_pow.
  set (f := pw (depth - qd q)). assert (Hf : 0 < f) by apply pw_pos.
  assert (E : pw depth = f * pw (qd q)) by (unfold f, pw; rewrite <- pow_add; f_equal; lia). rewrite E.
  replace (X * (f * pw (qd q))) with (f * (X * pw (qd q))) by ring.
  replace (Y * (f * pw (qd q))) with (f * (Y * pw (qd q))) by ring.
  split; intros ((A & B) & (C & D)); repeat split; try (apply Rmult_le_reg_l with f; assumption); apply Rmult_le_compat_l; try assumption; lra.
Qed.
