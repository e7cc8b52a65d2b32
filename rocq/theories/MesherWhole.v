(** The triangulation of a whole surface. *)
From Coq Require Import Reals Lra Psatz Permutation Sorted.
From Verif Require Import Base BaseFacts Vec GeomModel QuadModel KronrodFacts SurfaceModel
  MesherModel MesherFacts MesherRun MesherSpec MesherTile MesherTri MesherSurf MesherEnd.
Local Open Scope R_scope.

Definition rect_pos (r : rect) : Prop := fst (fst r) < snd (fst r) /\ fst (snd r) < snd (snd r).
Definition rect_sep (r r' : rect) : Prop := snd (fst r) <= fst (fst r') \/ snd (snd r) <= fst (snd r').
Definition strictly_inside (r : rect) (T : list ptri) : Prop :=
  forall t p, In t T -> tri_interior t p -> fst (fst r) < fst p < snd (fst r) /\ fst (snd r) < snd p < snd (snd r).
Definition r_inside (r : rect) T := inside (fst (fst r)) (snd (fst r)) (fst (snd r)) (snd (snd r)) T.
Definition r_covers (r : rect) T := covers (fst (fst r)) (snd (fst r)) (fst (snd r)) (snd (snd r)) T.

Definition cell_cover (qs : list quad) : Prop := forall X Y, 0 <= X <= 1 -> 0 <= Y <= 1 -> exists q, In q qs /\ closed_cell q X Y.

Lemma right_tri s r depth pts m :
  (forall i j k, m i j = Some k -> (i <= 2 ^ depth)%nat /\ (j <= 2 ^ depth)%nat /\
    exists p, nth_error pts k = Some p /\ sfun s (cu r depth i) (cv r depth j) = Ok p) ->
  forall t k, tri_is m t k -> tri_on (sfun s) Ok pts (tri_param (fst (fst r)) (snd (fst r)) (fst (snd r)) (snd (snd r)) depth t) k.
Proof.
  intros H t ((ka, kb), kc) (A & B & C). unfold tri_param, tri_on, pos_is in *. cbn [fst snd] in *.
  apply H in A, B, C. destruct A as (_ & _ & A), B as (_ & _ & B), C as (_ & _ & C). repeat split; assumption.
Qed.

(** every corner of the triangles of a section is at a grid position of it *)
Definition located depth (r : rect) (m : index_map) (t : ptri) (k : nat * nat * nat) : Prop :=
  forall p x, corner_of t k p x -> exists i j, m i j = Some x /\ p = (cu r depth i, cv r depth j).
Lemma located_tri r depth m t k : tri_is m t k ->
  located depth r m (tri_param (fst (fst r)) (snd (fst r)) (fst (snd r)) (snd (snd r)) depth t) k.
Proof.
  destruct k as ((ka, kb), kc), t as ((a, b), c). intros (A & B & C) p x H. unfold tri_param, corner_of, pos_is in *. cbn [fst snd] in *.
  destruct H as [(-> & ->)|[(-> & ->)|(-> & ->)]]; [exists (fst a), (snd a)|exists (fst b), (snd b)|exists (fst c), (snd c)]; split; try assumption; reflexivity.
Qed.

Lemma collect s depth pts : forall rs ms qss kss,
  Forall2 (fun r m => forall i j k, m i j = Some k -> (i <= 2 ^ depth)%nat /\ (j <= 2 ^ depth)%nat /\
    exists p, nth_error pts k = Some p /\ sfun s (cu r depth i) (cv r depth j) = Ok p) rs ms ->
  Forall2 (fun m qs => Forall (at_depth depth m) qs) ms qss ->
  Forall2 (fun mq ks => section_result depth (fst mq) (snd mq) ks) (combine ms qss) kss ->
  Forall rect_pos rs -> Forall (ForallOrdPairs disj) qss ->
  exists Ts, Forall2 (fun r T => oriented T /\ no_overlap T /\ r_inside r T /\ strictly_inside r T) rs Ts /\
    Forall2 (Forall2 (tri_on (sfun s) Ok pts)) Ts kss /\
    Forall2 (fun rm tk => Forall2 (located depth (fst rm) (snd rm)) (fst tk) (snd tk)) (combine rs ms) (combine Ts kss) /\
    (Forall cell_cover qss -> Forall2 r_covers rs Ts).
Proof.
  intros rs ms qss kss Hm. revert qss kss. induction Hm as [|r m rs ms Hr Hm IH]; intros qss kss Hq Hk Hp Hd.
  - inversion Hq; subst. cbn [combine] in Hk. inversion Hk; subst. exists []. repeat split; constructor.
  - inversion Hq as [|? qs ? qss' Hq1 Hq2]; subst. cbn [combine] in Hk. inversion Hk as [|? ks ? kss' Hk1 Hk2]; subst.
    inversion Hp as [|? ? (P1 & P2) Hp2]; subst. inversion Hd as [|? ? Hd1 Hd2]; subst. cbn [fst snd] in Hk1.
    destruct Hk1 as (tss & E & Ht).
    destruct (IH qss' kss' Hq2 Hk2 Hp2 Hd2) as (Ts & A1 & A2 & A4 & A3).
    destruct (section_tiles (fst (fst r)) (snd (fst r)) (fst (snd r)) (snd (snd r)) depth P1 P2 m qs tss Hq1 Hd1 E)
      as (B1 & B2 & B3 & B4 & B5).
    exists (map (tri_param (fst (fst r)) (snd (fst r)) (fst (snd r)) (snd (snd r)) depth) (concat tss) :: Ts).
    split; [constructor; [|exact A1]; exact (conj B1 (conj B2 (conj B3 B4)))|]. split; [|split].
    + constructor; [|exact A2]. apply Forall2_map_l. eapply Forall2_impl_all; [|exact Ht]. intros t k. apply right_tri, Hr.
    + cbn [combine]. constructor; [|exact A4]. cbn [fst snd]. apply Forall2_map_l. eapply Forall2_impl_all; [|exact Ht]. intros t k. apply located_tri.
    + intros Hc. inversion Hc; subst. constructor; [apply B5; assumption|apply A3; assumption].
Qed.

(** intervals between sorted cuts *)
Lemma intervals_cons x y l : intervals (x :: y :: l) = (x, y) :: intervals (y :: l).
Proof. reflexivity. Qed.
Lemma intervals_sorted l : StronglySorted Rlt l ->
  Forall (fun ab => fst ab < snd ab) (intervals l) /\ ForallOrdPairs (fun ab cd => snd ab <= fst cd) (intervals l) /\
  Forall (fun ab => In (fst ab) l /\ In (snd ab) l) (intervals l).
Proof.
  induction l as [|x l IH]; intros H; [repeat split; constructor|].
  destruct l as [|y l]; [repeat split; constructor|].
  inversion H as [|? ? H1 H2]; subst. destruct (IH H1) as (A & B & C). rewrite intervals_cons. split; [|split].
  - constructor; [|exact A]. cbn [fst snd]. inversion H2; subst; assumption.
  - constructor; [|exact B]. rewrite Forall_forall in C |- *. intros cd Hcd. cbn [snd]. destruct (C cd Hcd) as (C1 & _).
    inversion H1 as [|? ? _ H3]; subst. destruct C1 as [->|C1]; [lra|]. rewrite Forall_forall in H3. apply Rlt_le, H3, C1.
  - constructor; [cbn [fst snd]; split; [left; reflexivity|right; left; reflexivity]|].
    eapply Forall_impl; [|exact C]. cbv beta. intros cd (C1 & C2). split; right; assumption.
Qed.
Lemma intervals_cover l x a b : l <> [] -> hd_error l = Some a -> last l a = b -> (2 <= length l)%nat -> a <= x <= b ->
  exists cd, In cd (intervals l) /\ fst cd <= x <= snd cd.
Proof.
  revert a. induction l as [|c l IH]; intros a Hne Ha Hb Hl Hx; [congruence|].
  cbn in Ha. injection Ha as ->. destruct l as [|y l]; [cbn [length] in Hl; lia|]. rewrite intervals_cons.
  destruct (Rle_dec x y) as [Hy|Hy].
  - exists (a, y). split; [left; reflexivity|]. cbn [fst snd]. lra.
  - destruct l as [|z l]; [cbn in Hb; lra|].
    destruct (IH y) as (cd & H1 & H2); [discriminate|reflexivity| |cbn [length]; lia|lra|].
    + rewrite <- Hb. clear. change (last (a :: y :: z :: l) a) with (last (z :: l) a). change (last (y :: z :: l) y) with (last (z :: l) y).
      revert z. induction l as [|w l IH]; intros z; [reflexivity|]. change (last (z :: w :: l) y) with (last (w :: l) y).
      change (last (z :: w :: l) a) with (last (w :: l) a). apply IH.
    + exists cd. split; [right; exact H1|exact H2].
Qed.
Lemma cuts_range bps len x : StronglySorted Rlt (cuts bps len) -> In x (cuts bps len) -> 0 <= x <= len.
Proof.
  unfold cuts. intros H Hin. inversion H as [|? ? H1 H2]; subst. rewrite Forall_forall in H2. split.
  - destruct Hin as [<-|Hin]; [lra|]. apply Rlt_le, H2, Hin.
  - destruct Hin as [<-|Hin]; [apply Rlt_le, H2, in_or_app; right; left; reflexivity|].
    clear H H2. induction bps as [|b bps IH]; cbn [app] in *; [destruct Hin as [<-|[]]; lra|].
    inversion H1 as [|? ? H3 H4]; subst. destruct Hin as [<-|Hin]; [|apply IH; assumption].
    rewrite Forall_forall in H4. apply Rlt_le, H4, in_or_app. right; left; reflexivity.
Qed.
Lemma cuts_cover bps len x : 0 <= x <= len -> exists cd, In cd (intervals (cuts bps len)) /\ fst cd <= x <= snd cd.
Proof.
  intros Hx. apply (intervals_cover (cuts bps len) x 0 len); try assumption; try discriminate; try reflexivity.
  - unfold cuts. change (0 :: bps ++ [len]) with ((0 :: bps) ++ [len]). apply last_last.
  - unfold cuts. cbn [length]. rewrite app_length. cbn [length]. lia.
Qed.

Definition well_cut (s : surface) : Prop :=
  StronglySorted Rlt (cuts (sbps1 s) (slen1 s)) /\ StronglySorted Rlt (cuts (sbps2 s) (slen2 s)).

Lemma FOP_prod {A B} (R : A -> A -> Prop) (Q : B -> B -> Prop) la lb :
  ForallOrdPairs R la -> ForallOrdPairs Q lb ->
  ForallOrdPairs (fun x y => R (fst x) (fst y) \/ Q (snd x) (snd y)) (list_prod la lb).
Proof.
  intros HA HB. induction HA as [|a la Ha HA IH]; cbn [list_prod]; [constructor|]. apply FOP_app. split; [|split; [exact IH|]].
  - apply FOP_map. eapply FOP_impl; [|exact HB]. cbv beta. intros x y H. right. exact H.
  - intros x y Hx Hy. apply in_map_iff in Hx. destruct Hx as (b & <- & _). destruct y as (a', b').
    apply in_prod_iff in Hy. left. cbn [fst]. rewrite Forall_forall in Ha. apply Ha, Hy.
Qed.
Lemma rects_spec s : well_cut s -> Forall rect_pos (rects s) /\ ForallOrdPairs rect_sep (rects s) /\
  Forall (fun r => 0 <= fst (fst r) /\ snd (fst r) <= slen1 s /\ 0 <= fst (snd r) /\ snd (snd r) <= slen2 s) (rects s) /\
  (forall u v, 0 <= u <= slen1 s -> 0 <= v <= slen2 s -> exists r, In r (rects s) /\
     fst (fst r) <= u <= snd (fst r) /\ fst (snd r) <= v <= snd (snd r)).
Proof.
  intros (H1 & H2). destruct (intervals_sorted _ H1) as (A1 & B1 & C1), (intervals_sorted _ H2) as (A2 & B2 & C2).
  rewrite Forall_forall in A1, A2, C1, C2.
  split; [|split; [|split]].
  - apply Forall_forall. intros (a, b) Hin. apply in_prod_iff in Hin. destruct Hin as (Ia & Ib). split; [apply A1, Ia|apply A2, Ib].
  - exact (FOP_prod _ _ _ _ B1 B2).
  - apply Forall_forall. intros (a, b) Hin. apply in_prod_iff in Hin. destruct Hin as (Ia & Ib). cbn [fst snd].
    destruct (C1 a Ia) as (X1 & X2), (C2 b Ib) as (Y1 & Y2).
    apply (cuts_range _ _ _ H1) in X1, X2. apply (cuts_range _ _ _ H2) in Y1, Y2. lra.
  - intros u v Hu Hv. destruct (cuts_cover (sbps1 s) (slen1 s) u Hu) as (a & Ia & Ha).
    destruct (cuts_cover (sbps2 s) (slen2 s) v Hv) as (b & Ib & Hb). exists (a, b). split; [apply in_prod_iff; tauto|].
    cbn [fst snd]. split; assumption.
Qed.

(** everything about a successful run, when breakpoints occur in one direction *)
(** ** Neighbouring sections use the same points *)
Lemma located_all s depth ms Ts kss (pts : list vec3) :
  Forall2 (Forall2 (tri_on (sfun s) Ok pts)) Ts kss ->
  Forall2 (fun rm tk => Forall2 (located depth (fst rm) (snd rm)) (fst tk) (snd tk)) (combine (rects s) ms) (combine Ts kss) ->
  forall t k, In (t, k) (combine (concat Ts) (concat kss)) ->
  exists y r m, nth_error (rects s) y = Some r /\ nth_error ms y = Some m /\ located depth r m t k.
Proof.
  generalize (rects s). intros rs HT. revert rs ms. induction HT as [|T ks Ts kss H _ IH]; intros rs ms HL t k Hin; [destruct Hin|].
  destruct rs as [|r rs]; cbn [combine] in HL; [inversion HL|]. destruct ms as [|m ms]; [inversion HL|].
  inversion HL as [|? ? ? ? L1 L2]; subst. cbn [fst snd concat] in *.
  assert (HC : In (t, k) (combine T ks) \/ In (t, k) (combine (concat Ts) (concat kss))).
  { clear - H Hin. induction H as [|a b la lb _ _ IH]; cbn [app combine] in *; [right; exact Hin|]. destruct Hin as [Hin|Hin]; [left; left; exact Hin|].
    destruct (IH Hin) as [K|K]; [left; right; exact K|right; exact K]. }
  destruct HC as [HC|HC].
  - exists 0%nat, r, m. split; [reflexivity|]. split; [reflexivity|]. clear - L1 HC.
    induction L1 as [|a b la lb H _ IH]; [destruct HC|]. destruct HC as [HC|HC]; [injection HC as <- <-; exact H|apply IH, HC].
  - destruct (IH rs ms L2 t k HC) as (y & r' & m' & A & B & C). exists (S y), r', m'. auto.
Qed.
Lemma cu_inj r depth i i' : rect_pos r -> cu r depth i = cu r depth i' -> i = i'.
Proof.
  intros (H & _) E. unfold cu in E. pose proof (pw_pos depth) as Hp. apply INR_eq.
  apply (Rmult_eq_reg_l ((snd (fst r) - fst (fst r)) / pw depth)); [lra|]. apply Rgt_not_eq, Rdiv_lt_0_compat; lra.
Qed.
Lemma cv_inj r depth i i' : rect_pos r -> cv r depth i = cv r depth i' -> i = i'.
Proof.
  intros (_ & H) E. unfold cv in E. pose proof (pw_pos depth) as Hp. apply INR_eq.
  apply (Rmult_eq_reg_l ((snd (snd r) - fst (snd r)) / pw depth)); [lra|]. apply Rgt_not_eq, Rdiv_lt_0_compat; lra.
Qed.
Lemma cu_last r depth : cu r depth (2 ^ depth) = snd (fst r).
Proof. unfold cu. rewrite INR_pow. pose proof (pw_pos depth). unfold pw in *. field. lra. Qed.
Lemma cv_last r depth : cv r depth (2 ^ depth) = snd (snd r).
Proof. unfold cv. rewrite INR_pow. pose proof (pw_pos depth). unfold pw in *. field. lra. Qed.
Lemma cu_0 r depth : cu r depth 0 = fst (fst r).
Proof. unfold cu. cbn [INR]. ring. Qed.
Lemma cv_0 r depth : cv r depth 0 = fst (snd r).
Proof. unfold cv. cbn [INR]. ring. Qed.

Lemma sorted_nth l i j a b : StronglySorted Rlt l -> nth_error l i = Some a -> nth_error l j = Some b -> (i < j)%nat -> a < b.
Proof.
  intros H. revert i j. induction H as [|x l H IH Hx]; intros i j Ha Hb Hij; [destruct i; discriminate|].
  destruct j as [|j]; [lia|]. cbn in Hb. destruct i as [|i]; cbn in Ha.
  - injection Ha as ->. rewrite Forall_forall in Hx. apply Hx. eapply nth_error_In, Hb.
  - apply (IH i j); try assumption. lia.
Qed.
Lemma touching l y y' ab cd : StronglySorted Rlt l -> nth_error (intervals l) y = Some ab -> nth_error (intervals l) y' = Some cd ->
  (y < y')%nat -> snd ab <= fst cd /\ (snd ab = fst cd -> y' = (y + 1)%nat).
Proof.
  intros H A B Hy. apply intervals_nth in A, B. destruct A as (_ & A), B as (B & _).
  destruct (Nat.eq_dec (S y) y') as [<-|Hn]; [rewrite A in B; injection B as B; split; [lra|intros _; lia]|].
  assert (snd ab < fst cd) by (apply (sorted_nth l (S y) y'); try assumption; lia). split; [lra|]. intros E. lra.
Qed.
Lemma rects_u s y r : sbps2 s = [] -> nth_error (rects s) y = Some r ->
  nth_error (intervals (cuts (sbps1 s) (slen1 s))) y = Some (fst r) /\ snd r = (0, slen2 s).
Proof.
  intros E. unfold rects. rewrite E. change (intervals (cuts [] (slen2 s))) with [(0, slen2 s)].
  generalize (intervals (cuts (sbps1 s) (slen1 s))). intros l. revert y. induction l as [|a l IH]; intros y H; [destruct y; discriminate|].
  cbn [list_prod map app] in H. destruct y as [|y]; cbn [nth_error] in *; [injection H as <-; split; reflexivity|]. apply IH, H.
Qed.
Lemma rects_v s y r : sbps1 s = [] -> nth_error (rects s) y = Some r ->
  nth_error (intervals (cuts (sbps2 s) (slen2 s))) y = Some (snd r) /\ fst r = (0, slen1 s).
Proof.
  intros E. unfold rects. rewrite E. change (intervals (cuts [] (slen1 s))) with [(0, slen1 s)]. cbn [list_prod]. rewrite app_nil_r, nth_error_map.
  destruct (nth_error (intervals (cuts (sbps2 s) (slen2 s))) y) as [x|]; [|discriminate]. cbn. intros H. injection H as <-. split; reflexivity.
Qed.
Lemma weld_lt s depth pts ms : well_cut s -> sbps1 s = [] \/ sbps2 s = [] -> maps_right s depth pts ms -> edges_shared s depth ms ->
  forall y r m i j x y' r' m' i' j' x',
  nth_error (rects s) y = Some r -> nth_error ms y = Some m -> m i j = Some x ->
  nth_error (rects s) y' = Some r' -> nth_error ms y' = Some m' -> m' i' j' = Some x' -> (y < y')%nat ->
  cu r depth i = cu r' depth i' -> cv r depth j = cv r' depth j' -> x = x'.
Proof.
  intros Hw Hone HR HE y r m i j x y' r' m' i' j' x' R M I R' M' I' Hy Eu Ev.
  destruct (rects_spec s Hw) as (P & _). rewrite Forall_forall in P.
  pose proof (P r (nth_error_In _ _ R)) as Pr. pose proof (P r' (nth_error_In _ _ R')) as Pr'.
  unfold maps_right in HR.
  assert (B : (i <= 2 ^ depth)%nat /\ (j <= 2 ^ depth)%nat).
  { destruct (Forall2_nth_l _ _ _ _ _ HR R) as (m0 & M0 & H). pose proof (eq_trans (eq_sym M) M0) as Q0. apply some_inj in Q0. subst m0. destruct (H _ _ _ I) as (A & B & _). auto. }
  assert (B' : (i' <= 2 ^ depth)%nat /\ (j' <= 2 ^ depth)%nat).
  { destruct (Forall2_nth_l _ _ _ _ _ HR R') as (m0 & M0 & H). pose proof (eq_trans (eq_sym M') M0) as Q0. apply some_inj in Q0. subst m0. destruct (H _ _ _ I') as (A & B' & _). auto. }
  destruct Hw as (W1 & W2).
  assert (Hcase : sbps2 s = [] \/ (sbps1 s = [] /\ sbps2 s <> [])).
  { destruct (sbps2 s) eqn:E2; [left; reflexivity|right]. destruct Hone as [E1|E1]; [split; [exact E1|discriminate]|discriminate]. }
  destruct Hcase as [E2|(E1 & E2)].
  - apply (rects_u s _ _ E2) in R, R'. destruct R as (R & S1), R' as (R' & S2).
    destruct (touching _ _ _ _ _ W1 R R' Hy) as (T1 & T2).
    destruct (cu_range r depth i) as (_ & C1); [unfold rect_pos in Pr; lra|apply B|]. destruct (cu_range r' depth i') as (C2 & _); [unfold rect_pos in Pr'; lra|apply B'|].
    assert (y' = (y + 1)%nat) by (apply T2; lra). subst y'.
    assert (i = (2 ^ depth)%nat) by (apply (cu_inj r depth); [exact Pr|rewrite cu_last; lra]). subst i.
    assert (i' = 0%nat) by (apply (cu_inj r' depth); [exact Pr'|rewrite cu_0; lra]). subst i'.
    assert (Hj : j = j') by (apply (cv_inj r depth); [exact Pr|]; rewrite Ev; unfold cv; rewrite S1, S2; reflexivity). subst j'.
    destruct (HE y m m' M M') as (A & _). specialize (A E2 j). congruence.
  - apply (rects_v s _ _ E1) in R, R'. destruct R as (R & S1), R' as (R' & S2).
    destruct (touching _ _ _ _ _ W2 R R' Hy) as (T1 & T2).
    destruct (cv_range r depth j) as (_ & C1); [unfold rect_pos in Pr; lra|apply B|]. destruct (cv_range r' depth j') as (C2 & _); [unfold rect_pos in Pr'; lra|apply B'|].
    assert (y' = (y + 1)%nat) by (apply T2; lra). subst y'.
    assert (j = (2 ^ depth)%nat) by (apply (cv_inj r depth); [exact Pr|rewrite cv_last; lra]). subst j.
    assert (j' = 0%nat) by (apply (cv_inj r' depth); [exact Pr'|rewrite cv_0; lra]). subst j'.
    assert (Hj : i = i') by (apply (cu_inj r depth); [exact Pr|]; rewrite Eu; unfold cu; rewrite S1, S2; reflexivity). subst i'.
    destruct (HE y m m' M M') as (_ & A). specialize (A E1 E2 i). congruence.
Qed.
Lemma weld s depth pts ms T tris : well_cut s -> sbps1 s = [] \/ sbps2 s = [] -> maps_right s depth pts ms -> edges_shared s depth ms ->
  (forall t k, In (t, k) (combine T tris) ->
     exists y r m, nth_error (rects s) y = Some r /\ nth_error ms y = Some m /\ located depth r m t k) -> welded T tris.
Proof.
  intros Hw Hone HR HE HL t k t' k' p x x' H H' C C'.
  destruct (HL _ _ H) as (y & r & m & R & M & L). destruct (HL _ _ H') as (y' & r' & m' & R' & M' & L').
  destruct (L _ _ C) as (i & j & I & Ep), (L' _ _ C') as (i' & j' & I' & Ep'). rewrite Ep in Ep'. injection Ep' as Eu Ev.
  destruct (Nat.lt_trichotomy y y') as [Hy|[<-|Hy]].
  - eapply (weld_lt s depth pts ms Hw Hone HR HE y r m i j x y' r' m'); eassumption.
  - rewrite R in R'. injection R' as <-. rewrite M in M'. injection M' as <-.
    destruct (rects_spec s Hw) as (P & _). rewrite Forall_forall in P. specialize (P r (nth_error_In _ _ R)).
    apply (cu_inj r depth _ _ P) in Eu. apply (cv_inj r depth _ _ P) in Ev. subst. congruence.
  - symmetry. eapply (weld_lt s depth pts ms Hw Hone HR HE y' r' m' i' j' x' y r m); try eassumption; symmetry; assumption.
Qed.

Lemma mesh_surface_whole fuel s msize sd pts tris depth ms qss :
  well_cut s -> sbps1 s = [] \/ sbps2 s = [] ->
  mesh_surface fuel s msize sd = Ok ((pts, tris), (depth, ms, qss)) ->
  maps_right s depth pts ms /\ edges_shared s depth ms /\
  exists T, Forall2 (tri_on (sfun s) Ok pts) T tris /\ welded T tris /\ oriented T /\ no_overlap T /\
    inside 0 (slen1 s) 0 (slen2 s) T /\
    ((forall r qs, In r (rects s) ->
        section_quads fuel (decide_split msize) sd (index_to_point (rsection s r)) = Ok qs -> cell_cover qs) ->
     covers 0 (slen1 s) 0 (slen2 s) T).
Proof.
  intros Hw Hone H. unfold mesh_surface in H. fold (evals s) in H.
  pose proof (mesher_spec fuel (decide_split msize) sd (length (sbps1 s) + 1) (length (sbps2 s) + 1) (evals s)
     (fun depth pts ms => maps_right s depth pts ms /\ edges_shared s depth ms)
     (evals_compatible s) (evals_len s) (one_direction s Hone)) as G.
  assert (HV : forall depth pts ms, maps_right s depth pts ms /\ edges_shared s depth ms ->
     Forall (vals (fun k => (k < length pts)%nat) (2 ^ depth)) ms).
  { intros d p m (HR & _). apply maps_right_ok in HR. eapply Forall2_right; [|exact HR]. intros e x. apply ok_vals. }
  specialize (G HV). clear HV.
  destruct (mapM (section_quads fuel (decide_split msize) sd) (evals s)) as [qss0|e] eqn:EQ; [|rewrite G in H; discriminate].
  destruct G as (pts' & tris' & depth' & ms' & kss & EM & Hwf & (HR & HE) & Hat & Htris & Hres).
  rewrite EM in H. injection H as <- <- <- <- <-. split; [exact HR|]. split; [exact HE|].
  destruct (rects_spec s Hw) as (P1 & P2 & P3 & P4).
  assert (Hdis : Forall (ForallOrdPairs disj) (map (map (scale_quad depth')) qss0)).
  { apply mapM_ok in EQ. apply Forall_map. clear - EQ Hwf. induction EQ as [|e q le lq E _ IH]; inversion Hwf as [|? ? W1 W2]; subst; constructor; [|apply IH, W2].
    apply quads_disj in E. destruct E as (E & _). apply FOP_map. clear - E W1. induction E as [|a l Ha _ IH]; [constructor|].
    inversion W1 as [|? ? (_ & Wa) Wl]; subst. constructor; [|apply IH, Wl].
    rewrite Forall_forall in Ha, Wl |- *. intros b Hb X Y. destruct (Wl b Hb) as (_ & Wb). rewrite !scale_open by assumption. apply Ha, Hb. }
  destruct (collect s depth' pts' (rects s) ms' _ kss HR Hat Hres P1 Hdis) as (Ts & T1 & T2 & T4 & T3).
  exists (concat Ts). split; [|split; [|split; [|split; [|split]]]].
  - rewrite Htris. clear - T2. induction T2; cbn [concat]; [constructor|]. apply Forall2_app; assumption.
  - rewrite Htris. apply (weld s depth' pts' ms' _ _ Hw Hone HR HE). eapply located_all; eassumption.
  - apply Forall_concat. clear - T1. induction T1 as [|r T rs Ts (A & _) _ IH]; constructor; [exact A|exact IH].
  - apply FOP_concat.
    + clear - T1. induction T1 as [|r T rs Ts (_ & A & _) _ IH]; constructor; [exact A|exact IH].
    + clear - T1 P2. induction T1 as [|r T rs Ts (_ & _ & _ & A) HF IH]; constructor; inversion P2 as [|? ? P3 P4]; subst; [|apply IH, P4].
      apply Forall_forall. intros T' HT' t t' Ht Ht' p (I1 & I2). apply (A t p Ht) in I1.
      assert (exists r', In r' rs /\ strictly_inside r' T') as (r' & Hr' & A').
      { clear - HF HT'. induction HF as [|a b la lb (_ & _ & _ & H) _ IH]; [destruct HT'|]. destruct HT' as [<-|HT'].
        - exists a. split; [left; reflexivity|exact H].
        - destruct (IH HT') as (r' & X & Y). exists r'. split; [right; exact X|exact Y]. }
      apply (A' t' p Ht') in I2. rewrite Forall_forall in P3. specialize (P3 r' Hr'). unfold rect_sep in P3. lra.
  - apply Forall_concat. clear - T1 P3. induction T1 as [|r T rs Ts (_ & _ & A & _) _ IH]; inversion P3 as [|? ? (B1 & B2 & B3 & B4) P4]; subst; constructor; [|apply IH, P4].
    eapply Forall_impl; [|exact A]. cbv beta. intros t Ht p Hp. destruct (Ht p Hp) as (C1 & C2). lra.
  - intros Hcov. assert (HC : Forall cell_cover (map (map (scale_quad depth')) qss0)).
    { apply mapM_ok in EQ. rewrite evals_rects in EQ. apply Forall2_map_l in EQ. apply Forall_map.
      clear - EQ Hwf Hcov. induction EQ as [|r q lr lq E _ IH]; inversion Hwf as [|? ? W1 W2]; subst; constructor.
      - intros X Y HX HY. destruct (Hcov r q (or_introl eq_refl) E X Y HX HY) as (c & Hc & Hcc).
        exists (scale_quad depth' c). split; [apply in_map, Hc|]. apply scale_closed; [|exact Hcc].
        rewrite Forall_forall in W1. apply W1, Hc.
      - apply IH; [exact W2|]. intros r' qs' Hr'. apply Hcov. right. exact Hr'. }
    specialize (T3 HC). intros u v Hu Hv. destruct (P4 u v Hu Hv) as (r & Hr & Ru & Rv).
    assert (exists T, In T Ts /\ r_covers r T) as (T & HT & HTc).
    { clear - T3 Hr. induction T3 as [|a b la lb H _ IH]; [destruct Hr|]. destruct Hr as [<-|Hr].
      - exists b. split; [left; reflexivity|exact H].
      - destruct (IH Hr) as (T & X & Y). exists T. split; [right; exact X|exact Y]. }
    destruct (HTc u v Ru Rv) as (t & Ht & Hc). exists t. split; [|exact Hc]. apply in_concat. exists T. split; assumption.
Qed.
