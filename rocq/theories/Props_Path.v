(** Property theorems about paths: C17-C21, C53, C54. *)
From Coq Require Import Reals Lra Lia Permutation.
From Coquelicot Require Import Coquelicot.
From Verif Require Import Base BaseFacts Float64 OrientModel MeshModel MeshSpec Vec GeomModel GeomFacts QuadModel KronrodFacts.
From Verif Require Import PathModel PathSpec PathFacts PathMeshFacts PathOpsFacts PolyFacts MeshExamples.
Local Open Scope R_scope.

(** ** C17 Discretisation of a path *)
Theorem C17_samples_for_mesh_size L bps ms msf nf :
  (1 <= nf)%nat -> 0 < ms -> weakly_increasing (0 :: bps ++ [L])%list ->
  exists us, discretize_path L bps (Some ms) msf nf = Ok us /\
    good_samples L bps us nf (ms / INR nf).
Proof. exact (discretize_size_good L bps ms msf nf). Qed.
Print Assumptions C17_samples_for_mesh_size.

Theorem C17_samples_for_mesh_size_factor L bps f nf :
  (1 <= nf)%nat -> weakly_increasing (0 :: bps ++ [L])%list ->
  exists us, discretize_path L bps None (Some f) nf = Ok us /\
    good_samples L bps us nf (L / INR (3 * nf)).
Proof. exact (discretize_factor_good L bps f nf). Qed.
Print Assumptions C17_samples_for_mesh_size_factor.

Theorem C17_no_size_rejected L bps nf : discretize_path L bps None None nf = Err AssertionError.
Proof. reflexivity. Qed.
Print Assumptions C17_no_size_rejected.

Example C17_nonvacuous : weakly_increasing (0 :: [1; 1; 2] ++ [5])%list /\
  exists us, discretize_path 5 [1; 1; 2] (Some (1/2)) None 3 = Ok us /\ (28 <= length us)%nat.
Proof.
  assert (W : weakly_increasing (0 :: [1; 1; 2] ++ [5])%list).
  { intros i Hi. destruct i as [|[|[|[|i]]]]; simpl in *; try lra; lia. }
  split; [exact W|].
  destruct (C17_samples_for_mesh_size 5 [1; 1; 2] (1/2) None 3 ltac:(lia) ltac:(lra) W) as (us & E & G).
  exists us. split; [exact E|].
  assert (K : forall k p q, nth_error (0 :: [1; 1; 2] ++ [5])%list k = Some p ->
     nth_error (0 :: [1; 1; 2] ++ [5])%list (S k) = Some q -> p < q ->
     exists s n, (3 <= n)%nat /\ nth_error us (3 * s) = Some p /\ nth_error us (3 * (s + n)) = Some q)
    by apply (gs_sections _ _ _ _ _ G).
  assert (M : forall i j x y, nth_error us i = Some x -> nth_error us j = Some y -> x < y -> (i < j)%nat).
  { intros i j x y Hi Hj Hxy. destruct (le_lt_dec j i) as [C|C]; [exfalso|exact C].
    pose proof (nth_error_lt _ _ _ Hi) as Hl.
    apply nth_error_nth with (d := 0) in Hi. apply nth_error_nth with (d := 0) in Hj. subst x y.
    assert (nth j us 0 <= nth i us 0); [|lra].
    clear - C Hl G. induction C as [|i C IH]; [lra|].
    pose proof (gs_strict _ _ _ _ _ G i Hl). specialize (IH ltac:(lia)). lra. }
  destruct (K 0%nat 0 1 eq_refl eq_refl ltac:(lra)) as (s1 & n1 & N1 & A1 & B1).
  destruct (K 2%nat 1 2 eq_refl eq_refl ltac:(lra)) as (s2 & n2 & N2 & A2 & B2).
  destruct (K 3%nat 2 5 eq_refl eq_refl ltac:(lra)) as (s3 & n3 & N3 & A3 & B3).
  assert (U : forall i j x, nth_error us i = Some x -> nth_error us j = Some x -> i = j).
  { intros i j x Hi Hj. pose proof (nth_error_lt _ _ _ Hi) as Li. pose proof (nth_error_lt _ _ _ Hj) as Lj.
    destruct (Nat.lt_trichotomy i j) as [C|[C|C]]; [exfalso|exact C|exfalso];
      apply nth_error_nth with (d := 0) in Hi; apply nth_error_nth with (d := 0) in Hj.
    - assert (nth i us 0 < nth j us 0); [|lra]. clear - C Lj G. induction C as [|j C IH].
      + apply (gs_strict _ _ _ _ _ G). exact Lj.
      + pose proof (gs_strict _ _ _ _ _ G j Lj). specialize (IH ltac:(lia)). lra.
    - assert (nth j us 0 < nth i us 0); [|lra]. clear - C Li G. induction C as [|i C IH].
      + apply (gs_strict _ _ _ _ _ G). exact Li.
      + pose proof (gs_strict _ _ _ _ _ G i Li). specialize (IH ltac:(lia)). lra. }
  pose proof (U _ _ _ B1 A2). pose proof (U _ _ _ B2 A3).
  apply nth_error_lt in B3. lia.
Qed.

(** ** C18 Meshing a path *)
Theorem C18_mesh_runs_along_the_path o enc p msz msf (ho : bool) nm ens :
  (* stored coordinates are numbers *)
  (forall v, pt_ok (enc v)) ->
  (* the path is defined along its length *)
  (forall u, 0 <= u <= plen p -> exists v, pfun p u = Ok v) ->
  weakly_increasing (0 :: pbps p ++ [plen p])%list ->
  (exists ms, msz = Some ms /\ 0 < ms) \/ (msz = None /\ exists f, msf = Some f) ->
  exists us d m ne,
    discretize_path (plen p) (pbps p) msz msf (if ho then 3 else 1)%nat = Ok us /\
    good_samples (plen p) (pbps p) us (if ho then 3 else 1)%nat d /\
    path_mesh o enc p msz msf ho nm ens = Ok m /\
    length us = (if ho then 3 * ne + 1 else ne + 1)%nat /\
    length (arows (m_lines m)) = ne /\ arows (m_triangles m) = [] /\
    (* element k runs along samples k and k+1 (3k, 3k+3, with 3k+1 and 3k+2 in between) *)
    (forall k, (k < ne)%nat -> exists r vs, nth_error (arows (m_lines m)) k = Some r /\
       samples_at p us (if ho then [3 * k; 3 * k + 3; 3 * k + 1; 3 * k + 2] else [k; S k])%nat vs /\
       element_along enc m r vs /\ (ens = false -> Forall2 (vertex_is enc m) r vs)) /\
    (* the name applies to all elements *)
    m_plines m = match (match nm with None => pname p | Some n => Some n end) with
                 | Some n => [(n, arange ne)] | None => [] end.
Proof.
  intros Henc Htot Hw Hsz.
  assert (Hnf : (1 <= if ho then 3 else 1)%nat) by (destruct ho; lia).
  assert (D : exists us d, discretize_path (plen p) (pbps p) msz msf (if ho then 3 else 1)%nat = Ok us /\
                good_samples (plen p) (pbps p) us (if ho then 3 else 1)%nat d).
  { destruct Hsz as [(ms & -> & Hms)|(-> & f & ->)].
    - destruct (discretize_size_good (plen p) (pbps p) ms msf _ Hnf Hms Hw) as (us & E & G). eauto.
    - destruct (discretize_factor_good (plen p) (pbps p) f _ Hnf Hw) as (us & E & G). eauto. }
  destruct D as (us & d & E & G).
  destruct (path_mesh_spec o enc p msz msf ho nm ens us d Henc Htot E G) as (m & ne & H).
  exists us, d, m, ne. tauto.
Qed.
Print Assumptions C18_mesh_runs_along_the_path.

Example C18_nonvacuous :
  let p := line (V3 0 0 0) (V3 3 0 4) in
  (forall v, pt_ok ((fun _ : vec3 => (f1, f0, f0)) v)) /\
  (forall u, 0 <= u <= plen p -> exists v, pfun p u = Ok v) /\
  weakly_increasing (0 :: pbps p ++ [plen p])%list.
Proof.
  cbv zeta. split; [intros _; split; [repeat split; vm_compute; congruence|reflexivity]|]. 
  assert (N : V3 0 0 0 <> V3 3 0 4) by (intros E; injection E; intros; lra).
  split; [intros u _; rewrite line_eval by exact N; eauto|].
  intros i Hi. simpl in *. destruct i as [|i]; [apply norm_nonneg|lia].
Qed.

(** ** C19 Concatenation of paths *)
Theorem C19_concatenation_follows_both p q e s :
  endpoint p = Ok e -> starting_point q = Ok s -> 0 <= plen p -> 0 <= plen q ->
  (points_close e s = false -> rshift p q = Err AssertionError) /\
  (points_close e s = true ->
   (* the joint is closed up to the tolerance *)
   (Rabs (vx e - vx s) <= 1/10^8 + 1/10^5 * Rabs (vx s) /\
    Rabs (vy e - vy s) <= 1/10^8 + 1/10^5 * Rabs (vy s) /\
    Rabs (vz e - vz s) <= 1/10^8 + 1/10^5 * Rabs (vz s)) /\
   exists r, rshift p q = Ok r /\ plen r = plen p + plen q /\
    (forall t, 0 <= t <= plen p -> pfun r t = pfun p t) /\
    (forall t, 0 < t <= plen q -> pfun r (plen p + t) = pfun q t) /\
    (forall t, t < 0 \/ plen p + plen q < t -> pfun r t = Err AssertionError)).
Proof.
  intros He Hs Hp Hq. split.
  - intros Hc. unfold rshift. rewrite He, Hs. cbn [bind]. rewrite Hc. reflexivity.
  - intros Hc. split.
    + unfold points_close in Hc. apply andb_prop in Hc. destruct Hc as [Hc Hz]. apply andb_prop in Hc.
      destruct Hc as [Hx Hy]. rewrite close1_true in Hx, Hy, Hz. auto.
    + destruct (rshift_ok p q e s He Hs Hc Hp Hq) as (r & H). exists r. tauto.
Qed.
Print Assumptions C19_concatenation_follows_both.

(** The breakpoints are right when the second path has none: its joint is marked. *)
Theorem C19_breakpoints_partial p q r :
  pbps q = [] -> rshift p q = Ok r -> pbps r = (pbps p ++ [plen p])%list.
Proof.
  intros Hq H. unfold rshift in H. apply bind_ok in H. destruct H as (e & _ & H).
  apply bind_ok in H. destruct H as (s & _ & H). apply bind_ok in H. destruct H as (u & _ & H).
  injection H as <-. simpl. rewrite Hq. reflexivity.
Qed.
Print Assumptions C19_breakpoints_partial.

(** In general they are not: a breakpoint of the second path keeps its position in that path, so
    the corner of [q] is missing from the mesh and the samples even run backwards. *)
Lemma norm_axis_x k : norm (V3 k 0 0) = Rabs k.
Proof. apply norm_unique; [apply Rabs_pos|]. unfold dot; simpl. rewrite <- Rabs_mult, Rabs_right by nra. ring. Qed.
Lemma norm_axis_y k : norm (V3 0 k 0) = Rabs k.
Proof. apply norm_unique; [apply Rabs_pos|]. unfold dot; simpl. rewrite <- Rabs_mult, Rabs_right by nra. ring. Qed.

Theorem C19_breakpoints_refuted :
  exists p q r b,
    follows_polyline p [V3 0 0 0; V3 3 0 0] /\
    follows_polyline q [V3 3 0 0; V3 3 1 0; V3 5 1 0] /\ (* a corner at length b = 1 *)
    In b (pbps q) /\ rshift p q = Ok r /\
    ~ In (plen p + b) (pbps r) /\
    exists us, discretize_path (plen r) (pbps r) None (Some 1%Z) 1 = Ok us /\
      ~ In (plen p + b) us /\
      exists i, (S i < length us)%nat /\ nth (S i) us 0 < nth i us 0.
Proof.
  set (a := V3 0 0 0). set (c := V3 3 0 0). set (d := V3 3 1 0). set (f := V3 5 1 0).
  assert (Hac : a <> c) by (intros E; injection E; intros; lra).
  assert (Hcd : c <> d) by (intros E; injection E; intros; lra).
  assert (Hdf : d <> f) by (intros E; injection E; intros; lra).
  assert (Lac : dist3 a c = 3).
  { unfold dist3, a, c, vsub; simpl. replace (0 - 0) with 0 by ring. rewrite norm_axis_x, Rabs_left; lra. }
  assert (Lcd : dist3 c d = 1).
  { unfold dist3, c, d, vsub; simpl. replace (0 - 0) with 0 by ring. replace (3 - 3) with 0 by ring.
    rewrite norm_axis_y, Rabs_left; lra. }
  assert (Ldf : dist3 d f = 2).
  { unfold dist3, d, f, vsub; simpl. replace (0 - 0) with 0 by ring. replace (1 - 1) with 0 by ring.
    rewrite norm_axis_x, Rabs_left; lra. }
  destruct (follows_line_to (line c d) [c] d f) as (q & Eq & Fq & _); [discriminate|exact Hcd|exact Hdf|apply (follows_line _ _ Hcd)|].
  cbn [app] in Fq. pose proof (follows_line _ _ Hac) as Fp.
  assert (Sq : pfun q 0 = Ok c) by (eapply follows_start; [|exact Fq]; exact Hcd).
  assert (Ep : endpoint (line a c) = Ok c).
  { unfold endpoint. rewrite line_eval by exact Hac. f_equal. apply (on_line_end a c Hac). }
  assert (Pq : plen q = 3) by (destruct Fq as (L & _); rewrite L; simpl; rewrite Lcd, Ldf; ring).
  assert (Bq : pbps q = [1]).
  { destruct Fq as (_ & B & _). rewrite B. simpl. rewrite Lcd. f_equal. ring. }
  assert (Pp : plen (line a c) = 3) by exact Lac.
  destruct (rshift_ok (line a c) q c c Ep Sq (points_close_refl c)) as (r & Er & Lr & _ & _ & _ & Br & _);
    [lra|lra|].
  exists (line a c), q, r, 1. split; [exact Fp|]. split; [exact Fq|].
  split; [rewrite Bq; left; reflexivity|]. split; [exact Er|].
  rewrite Br, Bq, Lr, Pp, Pq. cbn [pbps line app].
  split; [intros [E|[E|[]]]; lra|].
  unfold discretize_path. cbn [py_assert bind]. cbn [app discretize_sections].
  destruct (Req_EM_T 0 3) as [E|_]; [lra|]. destruct (Req_EM_T 3 1) as [E|_]; [lra|].
  destruct (Req_EM_T 1 (3 + 3)) as [E|_]; [lra|].
  cbn [section_count bind]. change (1 * Z.to_nat (3 * Z.max 1 1))%nat with 3%nat.
  unfold linspace_open, arange. cbn [seq map app]. eexists. split; [reflexivity|]. split.
  - simpl. intros H. repeat (destruct H as [H|H]; [lra|]). exact H.
  - exists 3%nat. split; [simpl; lia|]. simpl. lra.
Qed.
Print Assumptions C19_breakpoints_refuted.

Example C19_nonvacuous :
  let p := line (V3 0 0 0) (V3 3 0 0) in let q := line (V3 3 0 0) (V3 3 2 0) in
  endpoint p = Ok (V3 3 0 0) /\ starting_point q = Ok (V3 3 0 0) /\ points_close (V3 3 0 0) (V3 3 0 0) = true.
Proof.
  cbv zeta. assert (A : V3 0 0 0 <> V3 3 0 0) by (intros E; injection E; intros; lra).
  assert (B : V3 3 0 0 <> V3 3 2 0) by (intros E; injection E; intros; lra).
  split; [unfold endpoint; rewrite line_eval by exact A; f_equal; apply (on_line_end _ _ A)|].
  split; [unfold starting_point; rewrite line_eval by exact B; f_equal; apply (on_line_0 _ _ B)|].
  apply points_close_refl.
Qed.

(** ** C20 Cutting and phase-shifting paths *)
Theorem C20_cut p l :
  0 <= l <= plen p ->
  let p1 := fst (cut l p) in let p2 := snd (cut l p) in
  plen p1 = l /\ plen p2 = plen p - l /\
  (forall t, 0 <= t <= l -> pfun p1 t = pfun p t) /\
  (forall t, 0 <= t <= plen p - l -> pfun p2 t = pfun p (l + t)) /\
  (* every breakpoint, at its own position; none invented; order kept *)
  (forall b, In b (pbps p1) <-> In b (pbps p) /\ b <= l) /\
  (forall b, In b (pbps p2) <-> In (b + l) (pbps p) /\ 0 <= b) /\
  (sorted (pbps p) -> sorted (pbps p1) /\ sorted (pbps p2)) /\
  (* joining the two pieces gives the path back *)
  (forall e, pfun p l = Ok e -> exists r, rshift p1 p2 = Ok r /\ plen r = plen p /\
     forall t, 0 <= t <= plen p -> pfun r t = pfun p t).
Proof.
  intros Hl p1 p2. split; [reflexivity|]. split; [reflexivity|]. split; [reflexivity|].
  split; [intros t _; simpl; f_equal; ring|]. split; [|split; [|split]].
  - intros b. simpl. rewrite filter_In, Rleb_true. reflexivity.
  - intros b. simpl. rewrite in_map_iff. split.
    + intros (x & <- & Hx). apply filter_In in Hx. destruct Hx as [Hx Hle]. apply Rleb_true in Hle.
      replace (x - l + l) with x by ring. split; [exact Hx|lra].
    + intros [Hb Hle]. exists (b + l). split; [ring|]. apply filter_In. split; [exact Hb|]. apply Rleb_true. lra.
  - intros Hs.
    assert (Hsrt : forall l0, sorted l0 -> srt l0).
    { intros l0. induction l0 as [|x l0 IH]; intros H; constructor.
      - intros y Hy. apply In_nth with (d := 0) in Hy. destruct Hy as (i & Hi & <-).
        apply (H 0%nat (S i)). simpl. lia.
      - apply IH. intros i j Hij. apply (H (S i) (S j)). simpl. lia. }
    assert (Hf : forall f l0, srt l0 -> srt (filter f l0)).
    { intros f l0 H. induction H as [|x l0 Hx _ IH]; simpl; [constructor|]. destruct (f x); [|exact IH].
      constructor; [|exact IH]. intros y Hy. apply filter_In in Hy. apply Hx. tauto. }
    assert (Hm : forall k l0, srt l0 -> srt (map (fun b => b - k) l0)).
    { intros k l0 H. induction H as [|x l0 Hx _ IH]; simpl; constructor; [|exact IH].
      intros y Hy. apply in_map_iff in Hy. destruct Hy as (z & <- & Hz). specialize (Hx z Hz). lra. }
    split; apply srt_sorted; simpl; [apply Hf|apply Hm, Hf]; apply Hsrt; exact Hs.
  - intros e He. apply (cut_rejoin p l e Hl He).
Qed.
Print Assumptions C20_cut.

Theorem C20_add_phase p l :
  0 < plen p ->
  (is_closed p = Ok false -> add_phase l p = Err AssertionError) /\
  (is_closed p = Ok true ->
   exists r, add_phase l p = Ok r /\ plen r = plen p /\
   (* the same curve, l further on *)
   (forall u, exists k t, 0 <= t < plen p /\ t = l + u - IZR k * plen p /\ pfun r u = pfun p t) /\
   (forall t, 0 <= t < plen p -> exists u, 0 <= u < plen p /\ pfun r u = pfun p t) /\
   (0 <= l < plen p -> pfun r 0 = pfun p l) /\
   endpoint r = starting_point r /\
   (* breakpoints: increasing, within the path, and at the points of the original ones and of the
      old starting point, nothing else *)
   sorted (pbps r) /\ length (pbps r) = S (length (pbps p)) /\
   (forall b', In b' (pbps r) -> 0 <= b' < plen p) /\
   (forall b, 0 <= b < plen p -> In b (pbps p ++ [0])%list ->
      exists b', In b' (pbps r) /\ pfun r b' = pfun p b) /\
   (forall b', In b' (pbps r) -> exists b k, In b (pbps p ++ [0])%list /\ b' = b - l - IZR k * plen p)).
Proof.
  intros HL. split; [intros Hc; unfold add_phase; rewrite Hc; reflexivity|]. intros Hc.
  unfold add_phase. rewrite Hc. cbn [bind py_assert]. eexists. split; [reflexivity|].
  cbn [plen pfun pbps pname]. split; [reflexivity|].
  assert (Hev : forall t, 0 <= t < plen p -> Rmod (l + Rmod (t - l) (plen p)) (plen p) = t).
  { intros t Ht. destruct (Rmod_eq (t - l) (plen p) HL) as [k Hk]. apply Rmod_unique with (k := (- k)%Z); [exact Ht|].
    rewrite Hk, opp_IZR. ring. }
  split; [|split; [|split; [|split; [|split; [|split; [|split; [|split]]]]]]].
  - intros u. destruct (Rmod_eq (l + u) (plen p) HL) as [k Hk]. exists k, (Rmod (l + u) (plen p)).
    split; [apply Rmod_range; exact HL|]. auto.
  - intros t Ht. exists (Rmod (t - l) (plen p)). split; [apply Rmod_range; exact HL|].
    rewrite Hev by exact Ht. reflexivity.
  - intros Hl. rewrite Rplus_0_r, Rmod_id by exact Hl. reflexivity.
  - unfold endpoint, starting_point. cbn [plen pfun]. f_equal.
    rewrite Rplus_0_r. rewrite <- (Rmod_shift l 1 (plen p) HL). f_equal. ring.
  - apply Rsorted_sorted.
  - erewrite Permutation_length by apply Rsorted_perm. rewrite map_length, app_length. simpl. lia.
  - intros b' Hb. apply (Permutation_in _ (Rsorted_perm _)) in Hb. apply in_map_iff in Hb.
    destruct Hb as (b & <- & _). apply Rmod_range. exact HL.
  - intros b Hb Hin. exists (Rmod (b - l) (plen p)). split.
    + apply (Permutation_in _ (Permutation_sym (Rsorted_perm _))). apply in_map_iff. eauto.
    + rewrite Hev by exact Hb. reflexivity.
  - intros b' Hb. apply (Permutation_in _ (Rsorted_perm _)) in Hb. apply in_map_iff in Hb.
    destruct Hb as (b & <- & Hin). destruct (Rmod_eq (b - l) (plen p) HL) as [k Hk]. exists b, k. auto.
Qed.
Print Assumptions C20_add_phase.

Example C20_nonvacuous : exists p, is_closed p = Ok true /\ plen p = 4 /\ pbps p = [1; 2; 3].
Proof.
  assert (N : forall a b c a' b' c' : R, (a <> a' \/ b <> b' \/ c <> c') -> V3 a b c <> V3 a' b' c').
  { intros. intros E. injection E. intros. intuition. }
  destruct (follows_quad (V3 0 0 0) (V3 1 0 0) (V3 1 1 0) (V3 0 1 0)) as (p & E & F);
    try (apply N; lra).
  exists p. assert (S : pfun p 0 = Ok (V3 0 0 0)) by (eapply follows_start; [|exact F]; apply N; lra).
  assert (En : endpoint p = Ok (V3 0 0 0)).
  { apply (follows_end p [V3 0 0 0; V3 1 0 0; V3 1 1 0; V3 0 1 0] (V3 0 0 0)); [discriminate|exact F|].
    right. apply N; lra. }
  split; [unfold is_closed, starting_point; rewrite S, En; cbn [bind]; rewrite points_close_refl; reflexivity|].
  assert (D : dist3 (V3 0 0 0) (V3 1 0 0) = 1 /\ dist3 (V3 1 0 0) (V3 1 1 0) = 1 /\
              dist3 (V3 1 1 0) (V3 0 1 0) = 1 /\ dist3 (V3 0 1 0) (V3 0 0 0) = 1).
  { unfold dist3, vsub; simpl. replace (0 - 0) with 0 by ring. replace (1 - 1) with 0 by ring.
    rewrite !norm_axis_x, !norm_axis_y. repeat split; (rewrite Rabs_right; lra) || (rewrite Rabs_left; lra). }
  destruct D as (D1 & D2 & D3 & D4). destruct F as (L & B & _).
  split; [rewrite L; simpl; rewrite D1, D2, D3, D4; ring|].
  rewrite B. simpl. rewrite D1, D2, D3. repeat f_equal; ring.
Qed.

(** ** C21 Primitive curves *)
Theorem C21_line a b : a <> b ->
  exists g, (forall t, pfun (line a b) t = Ok (g t)) /\ plen (line a b) = dist3 a b /\
    g 0 = a /\ g (dist3 a b) = b /\ (forall s t, dist3 (g s) (g t) = Rabs (s - t)).
Proof.
  intros H. exists (on_line a b). split; [intros t; apply line_eval; exact H|]. split; [reflexivity|].
  split; [apply on_line_0; exact H|]. split; [apply on_line_end; exact H|].
  intros s t. apply on_line_dist. exact H.
Qed.
Print Assumptions C21_line.

(** A circle of radius [r] around [c] in the plane of the unit vectors [x], [y], started at
    [c + r x] towards [y], over [angle]. *)
Definition circular (p : path) (c x y : vec3) (r angle : R) : Prop :=
  plen p = angle * r /\ pbps p = [] /\ frame x y /\
  pfun p 0 = Ok (vadd c (vscale r x)) /\
  pfun p (angle * r) = Ok (vadd c (vadd (vscale (r * cos angle) x) (vscale (r * sin angle) y))) /\
  (forall t, exists q, pfun p t = Ok q /\ dist3 q c = r /\ dot (vsub q c) (cross x y) = 0) /\
  unit_speed p.

Lemma circle_circular (p : path) c x y r angle : 0 < r -> frame x y ->
  plen p = angle * r -> pbps p = [] -> (forall t, pfun p t = Ok (circle_at c x y r (/ r) t)) ->
  circular p c x y r angle.
Proof.
  intros Hr F L B E. unfold circular. split; [exact L|]. split; [exact B|]. split; [exact F|]. rewrite !E.
  split; [f_equal; unfold circle_at; rewrite Rmult_0_r, cos_0, sin_0; vec_ring|]. split.
  { f_equal. unfold circle_at. replace (/ r * (angle * r)) with angle by (field; lra). vec_ring. }
  split.
  - intros t. exists (circle_at c x y r (/ r) t). split; [apply E|]. split; [apply circle_at_radius; [exact F|lra]|].
    unfold circle_at, dot, cross; simpl. ring.
  - destruct (circle_at_speed c x y r (/ r) F) as (d & Hd & Hn); [left; field; lra|].
    exists (circle_at c x y r (/ r)), d. auto.
Qed.

Theorem C21_circles a b r angle : 0 < r ->
  circular (circle_xz a b r angle) (V3 a 0 b) ex ez r angle /\
  circular (circle_yz a b r angle) (V3 0 a b) ey ez r angle /\
  circular (circle_xy a b r angle) (V3 a b 0) ex ey r angle.
Proof.
  intros Hr.
  assert (H : forall x y, In (x, y) [(ex, ez); (ey, ez); (ex, ey)] -> frame x y).
  { intros x y [E|[E|[E|[]]]]; injection E as <- <-; unfold frame, dot, ex, ey, ez; simpl; repeat split; ring. }
  split; [|split]; (apply circle_circular; [exact Hr|apply H; simpl; tauto|reflexivity|reflexivity|]);
    intros t; simpl; rewrite Rdiv_py_ok by lra; cbn [bind]; f_equal; unfold move, circle_at;
    replace (t / r) with (/ r * t) by (unfold Rdiv; ring); apply vec_eq; simpl; ring.
Qed.
Print Assumptions C21_circles.

(** Arcs: start, end, constant distance to the centre, in the plane of the three points, unit
    speed; the reversed arc is the other part of the circle. *)
Theorem C21_arc center start end_ reverse :
  cross (vsub start center) (vsub end_ center) <> vzero ->
  exists p, arc center start end_ reverse = Ok p /\
    starting_point p = Ok start /\
    (dist3 end_ center = dist3 start center -> endpoint p = Ok end_) /\
    (forall t, exists q, pfun p t = Ok q /\ dist3 q center = dist3 start center /\
       dot (vsub q center) (cross (vsub start center) (vsub end_ center)) = 0) /\
    unit_speed p /\
    (forall p', arc center start end_ (negb reverse) = Ok p' ->
       plen p + plen p' = 2 * PI * dist3 start center) /\
    (if reverse then PI * dist3 start center < plen p < 2 * PI * dist3 start center
     else 0 < plen p < PI * dist3 start center).
Proof.
  intros Hc. destruct (arc_ok center start end_ reverse Hc) as (x & y & r & th & p & F & E & L & _ & Hf).
  destruct (arc_points center start end_ x y r th reverse F) as [P0 P1].
  pose proof F as [Ff Fr Fp Fs Ft Fe].
  exists p. split; [exact E|]. split; [unfold starting_point; rewrite Hf, P0; reflexivity|].
  split; [intros Hd; unfold endpoint; rewrite L, Hf, P1 by exact Hd; reflexivity|].
  split; [|split; [|split]].
  - intros t. eexists. split; [apply Hf|]. rewrite <- Fr. split; [apply circle_at_radius; [exact Ff|lra]|].
    rewrite Fe. replace (vsub start center) with (vscale r x) by (rewrite Fs; vec_ring).
    unfold circle_at, dot, cross; simpl. ring.
  - destruct (circle_at_speed center x y r (if reverse then - / r else / r) Ff) as (d & Hd & Hn).
    { destruct reverse; [right|left]; field; lra. }
    eexists. exists d. split; [exact Hf|]. auto.
  - intros p' E'. destruct (arc_ok center start end_ (negb reverse) Hc) as (x' & y' & r' & th' & p2 & F' & E2 & L' & _ & _).
    rewrite E2 in E'. injection E' as <-.
    destruct F' as [Ff' Fr' Fp' Fs' Ft' Fe'].
    assert (Hr : r' = r) by congruence. clear Fr'. subst r'.
    assert (Hx : x' = x).
    { rewrite Fs in Fs'. injection Fs' as A B C. apply vec_eq; apply (Rmult_eq_reg_l r); simpl in *; lra. }
    subst x'.
    assert (Hcos : dist3 end_ center * cos th' = dist3 end_ center * cos th).
    { assert (K : dot (vsub end_ center) x = dist3 end_ center * cos th).
      { rewrite Fe. destruct Ff as (X & _ & XY). rewrite dot_comm.
        replace (dot x _) with (dist3 end_ center * cos th * dot x x + dist3 end_ center * sin th * dot x y)
          by (unfold dot; simpl; ring). rewrite X, XY. ring. }
      rewrite <- K. rewrite Fe'. destruct Ff' as (X & _ & XY). rewrite dot_comm.
      replace (dot x _) with (dist3 end_ center * cos th' * dot x x + dist3 end_ center * sin th' * dot x y')
        by (unfold dot; simpl; ring). rewrite X, XY. ring. }
    assert (Hdp : 0 < dist3 end_ center).
    { destruct (norm_nonneg (vsub end_ center)) as [K|K]; [exact K|]. exfalso. apply Hc.
      symmetry in K. apply norm_zero in K. rewrite K. unfold cross, vzero; simpl. f_equal; ring. }
    apply Rmult_eq_reg_l in Hcos; [|lra].
    assert (Hth : th' = th) by (apply cos_inj; lra).
    subst th'. rewrite L, L'. rewrite <- Fr. destruct reverse; simpl; ring.
  - rewrite L, <- Fr. pose proof PI_RGT_0. destruct reverse; nra.
Qed.
Print Assumptions C21_arc.

(** Rectangles and apertures pass through their corners, in this order. *)
Theorem C21_rectangles a b c d : a < b -> c < d ->
  (exists p, rectangle_xz a b c d = Ok p /\
     follows_polyline p [V3 a 0 c; V3 b 0 c; V3 b 0 d; V3 a 0 d; V3 a 0 c]) /\
  (exists p, rectangle_yz a b c d = Ok p /\
     follows_polyline p [V3 0 a c; V3 0 a d; V3 0 b d; V3 0 b c; V3 0 a c]) /\
  (exists p, rectangle_xy a b c d = Ok p /\
     follows_polyline p [V3 a c 0; V3 a d 0; V3 b d 0; V3 b c 0; V3 a c 0]).
Proof.
  intros H1 H2.
  split; [|split]; apply follows_quad; intros E; injection E; intros; lra.
Qed.
Print Assumptions C21_rectangles.

Theorem C21_aperture height radius extent z : 0 < height -> radius < extent ->
  exists p, aperture height radius extent z = Ok p /\
    follows_polyline p [V3 extent 0 (z - height / 2); V3 radius 0 (z - height / 2);
                        V3 radius 0 (z + height / 2); V3 extent 0 (z + height / 2)].
Proof.
  intros H1 H2.
  destruct (follows_three (V3 extent 0 (- height / 2)) (V3 radius 0 (- height / 2))
              (V3 radius 0 (height / 2)) (V3 extent 0 (height / 2))) as (p & E & F);
    try (intros E; injection E; intros; lra).
  unfold aperture. apply bind_ok in E. destruct E as (p1 & E1 & E2). rewrite E1. cbn [bind]. rewrite E2. cbn [bind].
  eexists. split; [reflexivity|]. apply (follows_move (V3 0 0 z)) in F.
  match goal with |- follows_polyline _ ?l => match type of F with follows_polyline _ ?l' => replace l with l'; [exact F|] end end.
  simpl. unfold move, vadd; simpl. repeat (f_equal; try lra).
Qed.
Print Assumptions C21_aperture.

Example C21_nonvacuous :
  cross (vsub (V3 1 0 0) (V3 0 0 0)) (vsub (V3 0 0 1) (V3 0 0 0)) <> vzero /\
  dist3 (V3 0 0 1) (V3 0 0 0) = dist3 (V3 1 0 0) (V3 0 0 0).
Proof.
  split; [unfold cross, vsub, vzero; simpl; intros E; injection E; intros; lra|].
  unfold dist3. apply norm_eq. unfold dot, vsub; simpl. ring.
Qed.

(** ** C53 Closing a path *)
Theorem C53_close_partial p s e : 0 <= plen p ->
  starting_point p = Ok s -> endpoint p = Ok e -> s <> e ->
  exists r, close p = Ok r /\ is_closed r = Ok true /\ plen r = plen p + dist3 e s /\
    (forall t, 0 <= t <= plen p -> pfun r t = pfun p t) /\
    (forall t, 0 <= t <= dist3 e s -> pfun r (plen p + t) = Ok (vadd e (vscale (t / dist3 e s) (vsub s e)))) /\
    endpoint r = Ok s /\ pbps r = (pbps p ++ [plen p])%list.
Proof.
  intros Hp Hs He Hne. assert (Hes : e <> s) by congruence.
  destruct (line_to_ok p e s He Hes Hp) as (r & Er & Lr & F1 & F2 & En & Br & _).
  exists r. unfold close. rewrite Hs. cbn [bind]. split; [exact Er|].
  assert (S : starting_point r = Ok s) by (unfold starting_point; rewrite F1 by lra; exact Hs).
  split; [unfold is_closed; rewrite S, En; cbn [bind]; rewrite points_close_refl; reflexivity|].
  split; [exact Lr|]. split; [exact F1|]. split; [|auto].
  intros t Ht. rewrite <- on_line_dir by exact Hes. apply F2. exact Ht.
Qed.
Print Assumptions C53_close_partial.

(** Closing a path that already ends in its starting point raises. *)
Theorem C53_close_closed_refuted p s : starting_point p = Ok s -> endpoint p = Ok s ->
  exists e, close p = Err e.
Proof.
  intros Hs He. unfold close, line_to. rewrite Hs. cbn [bind]. rewrite He. cbn [bind].
  unfold rshift. rewrite He. cbn [bind]. unfold starting_point, line; cbn [pfun].
  replace (norm (vsub s s)) with 0.
  - unfold Rdiv_py, Req0. destruct (Req_EM_T 0 0); [|congruence]. simpl. eauto.
  - symmetry. apply norm_zero. vec_ring.
Qed.
Print Assumptions C53_close_closed_refuted.

Example C53_nonvacuous :
  let p := line (V3 0 0 0) (V3 3 0 0) in
  0 <= plen p /\ starting_point p = Ok (V3 0 0 0) /\ endpoint p = Ok (V3 3 0 0) /\ V3 0 0 0 <> V3 3 0 0 /\
  (exists q, starting_point q = Ok (V3 0 0 0) /\ endpoint q = Ok (V3 0 0 0) /\ plen q = 4).
Proof.
  cbv zeta. assert (A : V3 0 0 0 <> V3 3 0 0) by (intros E; injection E; intros; lra).
  split; [apply norm_nonneg|].
  split; [unfold starting_point; rewrite line_eval by exact A; f_equal; apply (on_line_0 _ _ A)|].
  split; [unfold endpoint; rewrite line_eval by exact A; f_equal; apply (on_line_end _ _ A)|].
  split; [exact A|]. destruct C20_nonvacuous as (q & Hq & Lq & _).
  exists (mkpath (fun _ => Ok (V3 0 0 0)) 4 [] None). auto.
Qed.

(** ** C54 Rectangles are traversed counter clockwise *)
(** They are not: every rectangle runs clockwise around its axis. *)
Theorem C54_rectangles_clockwise_refuted a b c d : a < b -> c < d ->
  let xz := [V3 a 0 c; V3 b 0 c; V3 b 0 d; V3 a 0 d; V3 a 0 c] in
  let yz := [V3 0 a c; V3 0 a d; V3 0 b d; V3 0 b c; V3 0 a c] in
  let xy := [V3 a c 0; V3 a d 0; V3 b d 0; V3 b c 0; V3 a c 0] in
  (exists p, rectangle_xz a b c d = Ok p /\ follows_polyline p xz /\ ~ counter_clockwise ey xz) /\
  (exists p, rectangle_yz a b c d = Ok p /\ follows_polyline p yz /\ ~ counter_clockwise ex yz) /\
  (exists p, rectangle_xy a b c d = Ok p /\ follows_polyline p xy /\ ~ counter_clockwise ez xy).
Proof.
  intros H1 H2. destruct (C21_rectangles a b c d H1 H2) as ((p1 & E1 & F1) & (p2 & E2 & F2) & (p3 & E3 & F3)).
  cbv zeta. split; [exists p1|split; [exists p2|exists p3]]; (split; [assumption|split; [assumption|]]);
    unfold counter_clockwise; simpl; unfold dot, cross, ex, ey, ez; simpl; nra.
Qed.
Print Assumptions C54_rectangles_clockwise_refuted.

(** What holds instead: all three are traversed clockwise, and enclose the area of the rectangle. *)
Theorem C54_rectangles_clockwise_partial a b c d : a < b -> c < d ->
  polygon_area2 ey [V3 a 0 c; V3 b 0 c; V3 b 0 d; V3 a 0 d; V3 a 0 c] = - (2 * ((b - a) * (d - c))) /\
  polygon_area2 ex [V3 0 a c; V3 0 a d; V3 0 b d; V3 0 b c; V3 0 a c] = - (2 * ((b - a) * (d - c))) /\
  polygon_area2 ez [V3 a c 0; V3 a d 0; V3 b d 0; V3 b c 0; V3 a c 0] = - (2 * ((b - a) * (d - c))).
Proof. intros _ _. simpl. unfold dot, cross, ex, ey, ez; simpl. repeat split; ring. Qed.
Print Assumptions C54_rectangles_clockwise_partial.

(** The sense of [counter_clockwise] is the sense of rotate: a point and its image under a small
    positive rotation about the axis turn counter clockwise as seen from the origin. *)
Example C54_sense ax angle p : 0 < angle < PI -> dot p (unit_of ax) = 0 -> p <> vzero ->
  counter_clockwise (unit_of ax) [vzero; p; rodrigues (unit_of ax) angle vzero p; vzero].
Proof.
  intros Ha Hd Hp. unfold counter_clockwise; simpl.
  assert (Hn : 0 < dot p p).
  { destruct (dot_self_nonneg p) as [K|K]; [exact K|]. exfalso. apply Hp. apply norm_zero.
    rewrite norm_dot, <- K. apply sqrt_0. }
  assert (0 < sin angle) by (apply sin_gt_0; lra).
  assert (E : dot (unit_of ax) (cross p (rodrigues (unit_of ax) angle vzero p)) = sin angle * dot p p).
  { destruct p as [x y z]. destruct ax; unfold unit_of, rodrigues, dot, cross, ex, ey, ez, vzero in *; simpl in *;
      [replace x with 0 by lra|replace y with 0 by lra|replace z with 0 by lra]; ring. }
  assert (Z : forall n q, dot n (cross vzero q) = 0 /\ dot n (cross q vzero) = 0).
  { intros n q. unfold dot, cross, vzero; simpl. split; ring. }
  rewrite E, (proj1 (Z _ _)), (proj2 (Z _ _)). nra.
Qed.
