(** Polylines built with line, line_to and close. *)
From Coq Require Import Reals Lra Lia.
From Verif Require Import Base BaseFacts Vec GeomModel GeomFacts QuadModel KronrodFacts PathModel PathSpec PathFacts PathOpsFacts.
Local Open Scope R_scope.

Lemma dist3_nonneg a b : 0 <= dist3 a b.
Proof. apply norm_nonneg. Qed.
Lemma polylen_nonneg cs : 0 <= polylen cs.
Proof.
  induction cs as [|a cs IH]; simpl; [lra|]. destruct cs as [|b cs]; [lra|]. pose proof (dist3_nonneg a b). lra.
Qed.
Lemma polylen_snoc cs a b : polylen ((cs ++ [a]) ++ [b]) = polylen (cs ++ [a]) + dist3 a b.
Proof.
  induction cs as [|c cs IH]; simpl; [ring|]. destruct cs as [|d cs]; simpl in *; [ring|]. rewrite IH. ring.
Qed.
Lemma firstn_S_snoc {A} (l : list A) k a : nth_error l k = Some a -> firstn (S k) l = (firstn k l ++ [a])%list.
Proof.
  revert k. induction l as [|x l IH]; intros [|k] H; simpl in *; try discriminate.
  - congruence.
  - f_equal. apply IH. exact H.
Qed.
Lemma polylen_step cs k a b : nth_error cs k = Some a -> nth_error cs (S k) = Some b ->
  polylen (firstn (S (S k)) cs) = polylen (firstn (S k) cs) + dist3 a b.
Proof.
  intros Ha Hb. rewrite (firstn_S_snoc cs (S k) b Hb), (firstn_S_snoc cs k a Ha). apply polylen_snoc.
Qed.
Lemma polylen_firstn_mono cs : forall k j, (k <= j)%nat -> polylen (firstn k cs) <= polylen (firstn j cs).
Proof.
  intros k j H. induction H as [|j H IH]; [lra|]. eapply Rle_trans; [exact IH|].
  destruct (nth_error cs j) as [b|] eqn:Eb.
  - destruct j as [|j].
    + pose proof (polylen_nonneg (firstn 1 cs)). simpl. exact H0.
    + destruct (nth_error_total cs j) as [a Ha]; [apply nth_error_lt in Eb; lia|].
      rewrite (polylen_step cs j a b Ha Eb). pose proof (dist3_nonneg a b). lra.
  - apply nth_error_None in Eb. rewrite !firstn_all2 by lia. lra.
Qed.

Lemma on_line_dir a b t : a <> b -> on_line a b t = vadd a (vscale (t / dist3 a b) (vsub b a)).
Proof. intros H. unfold on_line, dist3. vec_ring. Qed.

Lemma follows_line a b : a <> b -> follows_polyline (line a b) [a; b].
Proof.
  intros H. split; [simpl; unfold dist3; ring|]. split; [reflexivity|].
  intros [|[|k]] x y t Hx Hy Ht; simpl in *; try discriminate.
  - injection Hx as <-. injection Hy as <-. rewrite Rplus_0_l.
    change (pfun (line a b) t = Ok (vadd a (vscale (t / dist3 a b) (vsub b a)))).
    rewrite line_eval by exact H. rewrite on_line_dir by exact H. reflexivity.
Qed.

Lemma follows_end p cs a : cs <> [] -> follows_polyline p (cs ++ [a]) -> (forall e, In e cs -> e <> a) \/ last cs vzero <> a ->
  endpoint p = Ok a.
Proof.
  intros Hne (L & B & F) Hd.
  assert (Hsp : exists cs0 e, cs = (cs0 ++ [e])%list).
  { destruct (exists_last Hne) as (c0 & e & ->). eauto. }
  destruct Hsp as (cs0 & e & ->).
  assert (Hea : e <> a).
  { destruct Hd as [Hd|Hd]; [apply Hd; apply in_app_iff; right; left; reflexivity|].
    rewrite last_last in Hd. exact Hd. }
  assert (N1 : nth_error ((cs0 ++ [e]) ++ [a]) (length cs0) = Some e).
  { rewrite nth_error_app1 by (rewrite app_length; simpl; lia). rewrite nth_error_app2, Nat.sub_diag by lia. reflexivity. }
  assert (N2 : nth_error ((cs0 ++ [e]) ++ [a]) (S (length cs0)) = Some a).
  { rewrite nth_error_app2 by (rewrite app_length; simpl; lia). replace (S (length cs0) - length (cs0 ++ [e]))%nat with 0%nat by (rewrite app_length; cbn [length]; lia). reflexivity. }
  specialize (F _ _ _ (dist3 e a) N1 N2 ltac:(pose proof (dist3_nonneg e a); lra)).
  assert (F1 : firstn (S (length cs0)) ((cs0 ++ [e]) ++ [a]) = (cs0 ++ [e])%list).
  { rewrite firstn_app. replace (S (length cs0) - length (cs0 ++ [e]))%nat with 0%nat by (rewrite app_length; cbn [length]; lia).
    rewrite firstn_all2 by (rewrite app_length; simpl; lia). simpl. apply app_nil_r. }
  rewrite F1 in F. unfold endpoint. rewrite L, polylen_snoc, F. f_equal.
  pose proof (dist_pos _ _ Hea) as Hp. fold (dist3 e a) in Hp.
  apply vec_eq; simpl; field; lra.
Qed.

Lemma follows_line_to p cs e b : cs <> [] -> last cs vzero <> e -> e <> b ->
  follows_polyline p (cs ++ [e]) ->
  exists r, line_to b p = Ok r /\ follows_polyline r ((cs ++ [e]) ++ [b]) /\ pfun r 0 = pfun p 0.
Proof.
  intros Hne Hl Heb HF. pose proof (follows_end _ _ _ Hne HF (or_intror Hl)) as He.
  destruct HF as (L & B & F).
  assert (Hpl : 0 <= plen p) by (rewrite L; apply polylen_nonneg).
  destruct (line_to_ok p e b He Heb Hpl) as (r & Er & Lr & F1 & F2 & _ & Br & _).
  exists r. split; [exact Er|]. split; [|apply F1; lra].
  set (n := length (cs ++ [e])). 
  assert (Hn : (2 <= n)%nat) by (unfold n; rewrite app_length; destruct cs; [congruence|simpl; lia]).
  assert (Fst : forall k, (k <= n)%nat -> firstn k ((cs ++ [e]) ++ [b]) = firstn k (cs ++ [e])).
  { intros k Hk. rewrite firstn_app. replace (k - length (cs ++ [e]))%nat with 0%nat by (fold n; lia).
    simpl. apply app_nil_r. }
  split; [rewrite Lr, L, polylen_snoc; reflexivity|]. split.
  - rewrite Br, B, L. rewrite (app_length _ [b]). fold n. simpl length.
    replace (n + 1 - 2)%nat with (S (n - 2)) by lia. rewrite seq_S, map_app. f_equal.
    + apply map_ext_in. intros k Hk. apply in_seq in Hk. rewrite Fst by lia. reflexivity.
    + cbn [map]. rewrite Fst by lia. replace (S (1 + (n - 2))) with n by lia.
      unfold n. rewrite firstn_all. reflexivity.
  - intros k x y t Hx Hy Ht.
    assert (Hk : (S k < n + 1)%nat).
    { apply nth_error_lt in Hy. rewrite app_length in Hy. fold n in Hy. simpl in Hy. lia. }
    rewrite Fst by lia.
    destruct (Nat.eq_dec (S k) n) as [E|E].
    + rewrite E. unfold n. rewrite firstn_all.
      rewrite nth_error_app1 in Hx by (fold n; lia).
      rewrite nth_error_app2 in Hy by (fold n; lia). fold n in Hy. rewrite E, Nat.sub_diag in Hy. injection Hy as <-.
      assert (Ex : x = e).
      { unfold n in E. rewrite app_length in E; simpl in E. rewrite nth_error_app2 in Hx by lia.
        replace (k - length cs)%nat with 0%nat in Hx by lia. injection Hx as <-. reflexivity. }
      subst x. rewrite <- L. rewrite F2 by exact Ht. rewrite on_line_dir by exact Heb. reflexivity.
    + rewrite nth_error_app1 in Hx by (fold n; lia). rewrite nth_error_app1 in Hy by (fold n; lia).
      rewrite F1; [apply (F k x y t Hx Hy Ht)|].
      pose proof (polylen_nonneg (firstn (S k) (cs ++ [e]))). split; [lra|].
      rewrite L. apply Rle_trans with (polylen (firstn (S (S k)) (cs ++ [e]))).
      * rewrite (polylen_step _ _ _ _ Hx Hy). lra.
      * rewrite <- (firstn_all (cs ++ [e])) at 2. apply polylen_firstn_mono. fold n. lia.
Qed.

Lemma follows_start p cs a b : a <> b -> follows_polyline p (a :: b :: cs) -> pfun p 0 = Ok a.
Proof.
  intros Hab (L & B & F). specialize (F 0%nat a b 0 eq_refl eq_refl).
  simpl firstn in F. simpl polylen in F. rewrite Rplus_0_l in F.
  rewrite F by (pose proof (dist3_nonneg a b); lra). f_equal.
  pose proof (dist_pos _ _ Hab) as Hp. fold (dist3 a b) in Hp. apply vec_eq; simpl; field; lra.
Qed.

(** Four corners and back: the rectangles. *)
Lemma follows_quad a b c d : a <> b -> b <> c -> c <> d -> d <> a ->
  exists p, (p1 <- line_to c (line a b) ;; p2 <- line_to d p1 ;; close p2) = Ok p /\
    follows_polyline p [a; b; c; d; a].
Proof.
  intros Hab Hbc Hcd Hda.
  destruct (follows_line_to (line a b) [a] b c) as (p1 & E1 & F1 & _); [discriminate|exact Hab|exact Hbc|apply (follows_line a b Hab)|].
  destruct (follows_line_to p1 [a; b] c d) as (p2 & E2 & F2 & _); [discriminate|exact Hbc|exact Hcd|exact F1|].
  destruct (follows_line_to p2 [a; b; c] d a) as (p3 & E3 & F3 & _); [discriminate|exact Hcd|exact Hda|exact F2|].
  exists p3. rewrite E1. cbn [bind]. rewrite E2. cbn [bind]. unfold close, starting_point.
  rewrite (follows_start p2 [c; d] a b Hab F2). cbn [bind]. split; [exact E3|exact F3].
Qed.
Lemma follows_three a b c d : a <> b -> b <> c -> c <> d ->
  exists p, (p1 <- line_to c (line a b) ;; line_to d p1) = Ok p /\
    follows_polyline p [a; b; c; d].
Proof.
  intros Hab Hbc Hcd.
  destruct (follows_line_to (line a b) [a] b c) as (p1 & E1 & F1 & _); [discriminate|exact Hab|exact Hbc|apply (follows_line a b Hab)|].
  destruct (follows_line_to p1 [a; b] c d) as (p2 & E2 & F2 & _); [discriminate|exact Hbc|exact Hcd|exact F1|].
  exists p2. rewrite E1. cbn [bind]. split; [exact E2|exact F2].
Qed.

Lemma polylen_map f cs : (forall a b, dist3 (f a) (f b) = dist3 a b) -> polylen (map f cs) = polylen cs.
Proof.
  intros H. induction cs as [|a cs IH]; [reflexivity|]. destruct cs as [|b cs]; [reflexivity|].
  simpl in *. rewrite H, IH. reflexivity.
Qed.
Lemma follows_move d p cs : follows_polyline p cs -> follows_polyline (path_move d p) (map (move d) cs).
Proof.
  assert (Hd : forall a b, dist3 (move d a) (move d b) = dist3 a b).
  { intros a b. unfold dist3, move. f_equal. vec_ring. }
  intros (L & B & F). split; [simpl; rewrite polylen_map; assumption|]. split.
  - change (pbps (path_move d p)) with (pbps p). rewrite B, map_length. apply map_ext. intros k. rewrite firstn_map, polylen_map by exact Hd. reflexivity.
  - intros k a b t Ha Hb Ht. rewrite nth_error_map in Ha, Hb.
    destruct (nth_error cs k) as [a0|] eqn:Ka; [|discriminate]. injection Ha as <-.
    destruct (nth_error cs (S k)) as [b0|] eqn:Kb; [|discriminate]. injection Hb as <-.
    rewrite Hd in *. rewrite firstn_map, polylen_map by exact Hd. cbn [path_move path_map pfun].
    rewrite (F k a0 b0 t Ka Kb Ht). cbn [bind]. f_equal. unfold move. vec_ring.
Qed.
