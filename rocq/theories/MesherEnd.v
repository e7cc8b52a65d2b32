(** From a surface to its triangles: what [_mesh] returns when breakpoints occur in at most one
    direction. *)
From Coq Require Import Reals Lra Psatz Permutation Sorted.
From Verif Require Import Base BaseFacts Vec GeomModel QuadModel KronrodFacts SurfaceModel
  MesherModel MesherFacts MesherRun MesherSpec MesherTile MesherTri MesherSurf.
Local Open Scope R_scope.

Lemma intervals_nth l : forall i ab, nth_error (intervals l) i = Some ab <->
  nth_error l i = Some (fst ab) /\ nth_error l (S i) = Some (snd ab).
Proof.
  unfold intervals. induction l as [|x l IH]; intros i ab.
  - cbn. destruct i; cbn; split; try discriminate; intros (H & _); discriminate.
  - destruct l as [|y l].
    + cbn [removelast combine nth_error]. split; [destruct i; discriminate|]. intros (_ & H). destruct i; discriminate.
    + change (removelast (x :: y :: l)) with (x :: removelast (y :: l)). cbn [tl combine].
      destruct i as [|i].
      * cbn [nth_error]. destruct ab as (a, b). cbn [fst snd]. split; [intros H; injection H as <- <-; auto|intros (H1 & H2); congruence].
      * cbn [nth_error]. destruct l as [|z l].
        -- cbn [removelast combine]. split; [destruct i; discriminate|]. intros (_ & H). destruct i; discriminate.
        -- exact (IH i ab).
Qed.
Lemma list_prod_single_r {A B} (l : list A) (b : B) : list_prod l [b] = map (fun a => (a, b)) l.
Proof. induction l as [|a l IH]; cbn [list_prod map app]; [reflexivity|]. rewrite IH. reflexivity. Qed.
Lemma list_prod_single_l {A B} (a : A) (l : list B) : list_prod [a] l = map (pair a) l.
Proof. cbn [list_prod]. apply app_nil_r. Qed.

Lemma rects_one_v s : sbps2 s = [] -> rects s = map (fun uu => (uu, (0, slen2 s))) (intervals (cuts (sbps1 s) (slen1 s))).
Proof. intros H. unfold rects. rewrite H. cbn. apply list_prod_single_r. Qed.
Lemma rects_one_u s : sbps1 s = [] -> rects s = map (pair (0, slen1 s)) (intervals (cuts (sbps2 s) (slen2 s))).
Proof. intros H. unfold rects. rewrite H. cbn. apply app_nil_r. Qed.

Lemma cu_0 r d : cu r d 0 = fst (fst r).
Proof. unfold cu. simpl (INR 0). ring. Qed.
Lemma cv_0 r d : cv r d 0 = fst (snd r).
Proof. unfold cv. simpl (INR 0). ring. Qed.
Lemma cu_n r d : cu r d (2 ^ d) = snd (fst r).
Proof. unfold cu. rewrite INR_pow. pose proof (pw_pos d). field. lra. Qed.
Lemma cv_n r d : cv r d (2 ^ d) = snd (snd r).
Proof. unfold cv. rewrite INR_pow. pose proof (pw_pos d). field. lra. Qed.
Lemma section_param s r d i j : index_to_point (rsection s r) d i j = sfun s (cu r d i) (cv r d j).
Proof. rewrite section_point. reflexivity. Qed.

Definition evals (s : surface) := map index_to_point (sections s).
Lemma evals_rects s : evals s = map (fun r => index_to_point (rsection s r)) (rects s).
Proof. unfold evals. rewrite sections_rects, map_map. reflexivity. Qed.
Lemma evals_len s : length (evals s) = ((length (sbps1 s) + 1) * (length (sbps2 s) + 1))%nat.
Proof. rewrite evals_rects, map_length. apply rects_len. Qed.
Lemma evals_compatible s : Forall compatible (evals s).
Proof. rewrite evals_rects. apply Forall_map, Forall_forall. intros r _. apply index_compatible. Qed.

Lemma ok_vals {P} (e : nat -> nat -> nat -> result P) pts depth m :
  ok_map e pts depth m -> vals (fun k => (k < length pts)%nat) (2 ^ depth) m.
Proof.
  intros H i j k Hk. destruct (H i j k Hk) as (A & B & p & Hp & _). repeat split; try assumption. eapply nth_error_lt; exact Hp.
Qed.
Lemma Forall2_right {A B} (R : A -> B -> Prop) (Q : B -> Prop) la lb : (forall a b, R a b -> Q b) -> Forall2 R la lb -> Forall Q lb.
Proof. intros H. induction 1; constructor; eauto. Qed.

(** gluing a row of maps: all neighbours agree afterwards *)
Section Row.
  Variables (f : index_map -> index_map -> index_map * index_map) (agree : index_map -> index_map -> Prop).
  Hypothesis f_agree : forall a b, agree (fst (f a b)) (snd (f a b)).
  (* gluing the end of [b] to [c] leaves the agreement of [a] and [b] as it was *)
  Hypothesis f_keep : forall a b c, agree a b -> agree a (fst (f b c)).
  Lemma glue_row n : forall ms ms',
    glue_all f ms (map (fun i => (i, i + 1)%nat) (seq 0 n)) = Ok ms' ->
    (forall x a b, (x < n)%nat -> nth_error ms' x = Some a -> nth_error ms' (x + 1)%nat = Some b -> agree a b) /\
    (forall x, (n < x)%nat -> nth_error ms' x = nth_error ms x) /\ length ms' = length ms.
  Proof.
    induction n as [|n IH]; intros ms ms' H.
    - cbn [seq map glue_all] in H. injection H as <-. repeat split; auto. intros; lia.
    - rewrite seq_S, map_app, glue_all_app in H. apply bind_ok in H. destruct H as (m1 & H1 & H).
      destruct (IH ms m1 H1) as (A1 & A2 & A3). cbn [map glue_all Nat.add] in H. apply bind_ok in H. destruct H as (m2 & H2 & H).
      injection H as <-. unfold glue in H2. apply bind_ok in H2. destruct H2 as (a & Ha & H2).
      apply bind_ok in H2. destruct H2 as (b & Hb & H2). apply np_get_ok in Ha, Hb.
      pose proof (f_agree a b) as Hab. pose proof (fun c => f_keep c a b) as Hk.
      destruct (f a b) as (a', b'). cbn [fst snd] in *. injection H2 as <-.
      assert (Ln : (n + 1 < length m1)%nat) by (eapply nth_error_lt; exact Hb).
      assert (N1 : nth_error (upd (upd m1 n a') (n + 1) b') n = Some a').
      { rewrite nth_error_upd_ne by lia. apply nth_error_upd_eq. lia. }
      assert (N2 : nth_error (upd (upd m1 n a') (n + 1) b') (n + 1) = Some b').
      { apply nth_error_upd_eq. rewrite upd_length. lia. }
      assert (N3 : forall x, x <> n -> x <> (n + 1)%nat -> nth_error (upd (upd m1 n a') (n + 1) b') x = nth_error m1 x).
      { intros x X1 X2. rewrite nth_error_upd_ne by lia. apply nth_error_upd_ne. lia. }
      split; [|split].
      + intros x c d Hx Hc Hd. destruct (Nat.eq_dec x n) as [->|Hne].
        * rewrite N1 in Hc. rewrite N2 in Hd. injection Hc as <-. injection Hd as <-. exact Hab.
        * rewrite N3 in Hc by lia. destruct (Nat.eq_dec (x + 1) n) as [E|Hne'].
          -- rewrite E, N1 in Hd. injection Hd as <-. apply Hk. apply (A1 x c a ltac:(lia) Hc). rewrite E. exact Ha.
          -- rewrite N3 in Hd by lia. apply (A1 x); [lia|exact Hc|exact Hd].
      + intros x Hx. rewrite N3 by lia. apply A2. lia.
      + rewrite !upd_length. exact A3.
  Qed.
End Row.

Definition agree_u n (a b : index_map) : Prop := forall j, a n j = b 0%nat j.
Definition agree_v n (a b : index_map) : Prop := forall i, a i n = b i 0%nat.
Lemma glue_u_agree n a b : (n <> 0)%nat -> agree_u n (fst (glue_u n a b)) (snd (glue_u n a b)).
Proof.
  intros Hn j. cbn [glue_u fst snd]. rewrite Nat.eqb_refl. cbn [Nat.eqb].
  destruct (b 0%nat j) as [k|]; cbn [over]; [reflexivity|]. destruct (a n j); reflexivity.
Qed.
Lemma glue_v_agree n a b : (n <> 0)%nat -> agree_v n (fst (glue_v n a b)) (snd (glue_v n a b)).
Proof.
  intros Hn i. cbn [glue_v fst snd]. rewrite Nat.eqb_refl. cbn [Nat.eqb].
  destruct (b i 0%nat) as [k|]; cbn [over]; [reflexivity|]. destruct (a i n); reflexivity.
Qed.
Lemma glue_u_keep n a b c : (n <> 0)%nat -> agree_u n a b -> agree_u n a (fst (glue_u n b c)).
Proof. intros Hn H j. cbn [glue_u fst]. destruct (Nat.eqb_spec 0 n); [lia|]. apply H. Qed.
Lemma glue_v_keep n a b c : (n <> 0)%nat -> agree_v n a b -> agree_v n a (fst (glue_v n b c)).
Proof. intros Hn H i. cbn [glue_v fst]. destruct (Nat.eqb_spec 0 n); [lia|]. apply H. Qed.

(** every index refers to the point of the surface at its parameters *)
Definition maps_right (s : surface) (depth : nat) (pts : list vec3) (ms : list index_map) : Prop :=
  Forall2 (fun r m => forall i j k, m i j = Some k -> (i <= 2 ^ depth)%nat /\ (j <= 2 ^ depth)%nat /\
    exists p, nth_error pts k = Some p /\ sfun s (cu r depth i) (cv r depth j) = Ok p) (rects s) ms.
(** neighbouring sections have the same indices along their common edge *)
Definition edges_shared (s : surface) (depth : nat) (ms : list index_map) : Prop :=
  forall x a b, nth_error ms x = Some a -> nth_error ms (x + 1)%nat = Some b ->
    (sbps2 s = [] -> agree_u (2 ^ depth) a b) /\ (sbps1 s = [] -> sbps2 s <> [] -> agree_v (2 ^ depth) a b).

Lemma maps_right_ok s depth pts ms :
  maps_right s depth pts ms <-> Forall2 (fun e m => ok_map e pts depth m) (evals s) ms.
Proof.
  unfold maps_right. rewrite evals_rects. split; intros H.
  - apply Forall2_map_l. eapply Forall2_impl_all; [|exact H]. cbv beta. intros r m Hm i j k Hk. rewrite section_param. apply Hm, Hk.
  - apply Forall2_map_l in H. eapply Forall2_impl_all; [|exact H]. cbv beta. intros r m Hm i j k Hk. rewrite <- section_param. apply Hm, Hk.
Qed.

Lemma flat_map_single {A B} (f : A -> B) l : flat_map (fun i => [f i]) l = map f l.
Proof. induction l; cbn [flat_map map app]; congruence. Qed.
Lemma pairs_u_one Nx : pairs_u Nx 1 = map (fun i => (i, i + 1)%nat) (seq 0 (Nx - 1)).
Proof. unfold pairs_u. cbn [seq map Nat.mul Nat.add]. apply flat_map_single. Qed.
Lemma pairs_v_one Nx : pairs_v Nx 1 = [].
Proof. unfold pairs_v. cbn [Nat.sub seq map]. induction (seq 0 Nx); cbn [flat_map app]; auto. Qed.
Lemma pairs_u_one' Ny : pairs_u 1 Ny = [].
Proof. reflexivity. Qed.
Lemma pairs_v_one' Ny : pairs_v 1 Ny = map (fun i => (i, i + 1)%nat) (seq 0 (Ny - 1)).
Proof.
  unfold pairs_v. cbn [seq flat_map]. rewrite app_nil_r. apply map_ext. intros j. f_equal; lia.
Qed.

Lemma one_direction s : sbps1 s = [] \/ sbps2 s = [] ->
  forall depth pts ms, Forall2 (fun e m => ok_map e pts depth m) (evals s) ms ->
  exists ms', stitch (2 ^ depth) (length (sbps1 s) + 1) (length (sbps2 s) + 1) ms = Ok ms' /\
    (maps_right s depth pts ms' /\ edges_shared s depth ms') /\ Forall2 sub_map ms ms'.
Proof.
  intros Hone depth pts ms H. unfold stitch.
  assert (Hn : (2 ^ depth)%nat <> 0%nat) by (apply Nat.pow_nonzero; lia).
  assert (Hlen : length ms = length (evals s)) by (symmetry; eapply Forall2_length; exact H). rewrite evals_len in Hlen.
  assert (D : sbps2 s = [] \/ (sbps1 s = [] /\ sbps2 s <> [])).
  { destruct (sbps2 s); [left; reflexivity|right]. split; [destruct Hone; [assumption|discriminate]|discriminate]. }
  destruct D as [E2|(E1 & E2)].
  - rewrite E2 in *. cbn [length Nat.add] in *. rewrite pairs_v_one, pairs_u_one.
    destruct (glue_all_spec (fun e m => ok_map e pts depth m) (evals s) (glue_u (2 ^ depth)) (glue_u_mono _)
                (map (fun i => (i, i + 1)%nat) (seq 0 (length (sbps1 s) + 1 - 1))) ms H) as (ms' & E & HR & HS).
    { apply Forall_map, Forall_forall. intros i Hi. apply in_seq in Hi. cbn [fst snd]. split; [lia|].
      rewrite evals_rects, (rects_one_v s E2), map_map.
      destruct (nth_error_total (intervals (cuts (sbps1 s) (slen1 s))) i) as (r1 & R1).
      { rewrite intervals_len. unfold cuts. cbn [length]. rewrite app_length. cbn [length]. lia. }
      destruct (nth_error_total (intervals (cuts (sbps1 s) (slen1 s))) (i + 1)) as (r2 & R2).
      { rewrite intervals_len. unfold cuts. cbn [length]. rewrite app_length. cbn [length]. lia. }
      eexists _, _. split; [rewrite nth_error_map, R1; reflexivity|]. split; [rewrite nth_error_map, R2; reflexivity|].
      intros a b. apply glue_u_ok. intros j Hj. rewrite !section_param, cu_n, cu_0. cbn [fst snd]. f_equal.
      apply intervals_nth in R1, R2. replace (i + 1)%nat with (S i) in R2 by lia. destruct R1 as (_ & R1), R2 as (R2 & _). congruence. }
    rewrite E. cbn [bind glue_all]. exists ms'. split; [reflexivity|]. split; [|exact HS]. split; [apply maps_right_ok, HR|].
    destruct (glue_row (glue_u (2 ^ depth)) (agree_u (2 ^ depth)) (fun a b => glue_u_agree _ a b Hn)
                (fun a b c => glue_u_keep _ a b c Hn) _ _ _ E) as (G1 & _ & G3).
    intros x a b Ha Hb. split; [|congruence]. intros _. eapply G1; [|exact Ha|exact Hb]. apply nth_error_lt in Hb. lia.
  - rewrite E1 in *. cbn [length Nat.add] in *. rewrite pairs_u_one', pairs_v_one'. cbn [glue_all bind].
    destruct (glue_all_spec (fun e m => ok_map e pts depth m) (evals s) (glue_v (2 ^ depth)) (glue_v_mono _)
                (map (fun i => (i, i + 1)%nat) (seq 0 (length (sbps2 s) + 1 - 1))) ms H) as (ms' & E & HR & HS).
    { apply Forall_map, Forall_forall. intros i Hi. apply in_seq in Hi. cbn [fst snd]. split; [lia|].
      rewrite evals_rects, (rects_one_u s E1), map_map.
      destruct (nth_error_total (intervals (cuts (sbps2 s) (slen2 s))) i) as (r1 & R1).
      { rewrite intervals_len. unfold cuts. cbn [length]. rewrite app_length. cbn [length]. lia. }
      destruct (nth_error_total (intervals (cuts (sbps2 s) (slen2 s))) (i + 1)) as (r2 & R2).
      { rewrite intervals_len. unfold cuts. cbn [length]. rewrite app_length. cbn [length]. lia. }
      eexists _, _. split; [rewrite nth_error_map, R1; reflexivity|]. split; [rewrite nth_error_map, R2; reflexivity|].
      intros a b. apply glue_v_ok. intros j Hj. rewrite !section_param, cv_n, cv_0. cbn [fst snd]. f_equal.
      apply intervals_nth in R1, R2. replace (i + 1)%nat with (S i) in R2 by lia. destruct R1 as (_ & R1), R2 as (R2 & _). congruence. }
    exists ms'. split; [exact E|]. split; [|exact HS]. split; [apply maps_right_ok, HR|].
    destruct (glue_row (glue_v (2 ^ depth)) (agree_v (2 ^ depth)) (fun a b => glue_v_agree _ a b Hn)
                (fun a b c => glue_v_keep _ a b c Hn) _ _ _ E) as (G1 & _ & G3).
    intros x a b Ha Hb. split; [congruence|]. intros _ _. eapply G1; [|exact Ha|exact Hb]. apply nth_error_lt in Hb. lia.
Qed.
