(** The mesher on surfaces: grid positions are parameters, sections, and coverage. *)
From Coq Require Import Reals Lra Psatz Permutation Sorted.
From Verif Require Import Base BaseFacts Vec GeomModel QuadModel KronrodFacts SurfaceModel MesherModel MesherFacts MesherRun MesherSpec MesherTile MesherTri.
Local Open Scope R_scope.

Lemma noi d : INR (number_of_indices d) - 1 = pw d.
Proof. unfold number_of_indices. rewrite plus_INR, INR_pow. simpl (INR 1). ring. Qed.

Lemma index_compatible s : compatible (index_to_point s).
Proof.
  intros d i j. unfold index_to_point, index_to_u, index_to_v. rewrite !noi, !mult_INR, pw_S. simpl (INR 2).
  pose proof (pw_pos d). f_equal; field; lra.
Qed.

(** the rectangles of the sections, in the order of the code *)
Definition rect : Type := (R * R) * (R * R).
Definition rects (s : surface) : list rect :=
  list_prod (intervals (cuts (sbps1 s) (slen1 s))) (intervals (cuts (sbps2 s) (slen2 s))).
Definition rsection (s : surface) (r : rect) : surface :=
  section s (fst (fst r)) (snd (fst r)) (fst (snd r)) (snd (snd r)).
Lemma sections_rects s : sections s = map (rsection s) (rects s).
Proof.
  unfold sections, rects. induction (intervals (cuts (sbps1 s) (slen1 s))) as [|u us IH]; [reflexivity|].
  cbn [flat_map list_prod]. rewrite map_app, IH. f_equal. rewrite map_map. reflexivity.
Qed.
Lemma section_point s r d i j :
  index_to_point (rsection s r) d i j =
  sfun s (fst (to_param (fst (fst r)) (snd (fst r)) (fst (snd r)) (snd (snd r)) d (INR i, INR j)))
         (snd (to_param (fst (fst r)) (snd (fst r)) (fst (snd r)) (snd (snd r)) d (INR i, INR j))).
Proof. unfold index_to_point, index_to_u, index_to_v, rsection, section, to_param. cbn [sfun slen1 slen2 fst snd]. rewrite !noi. reflexivity. Qed.

Lemma intervals_len l : length (intervals l) = (length l - 1)%nat.
Proof.
  unfold intervals. rewrite combine_length. destruct l as [|a l]; [reflexivity|].
  assert (E : length (removelast (a :: l)) = length l).
  { rewrite removelast_firstn_len, firstn_length. cbn [length Nat.pred]. lia. }
  rewrite E. cbn [tl length]. lia.
Qed.
Lemma rects_len s : length (rects s) = ((length (sbps1 s) + 1) * (length (sbps2 s) + 1))%nat.
Proof.
  unfold rects, rect. rewrite prod_length, !intervals_len. unfold cuts. cbn [length]. rewrite !app_length. cbn [length]. nia.
Qed.

(** chords of a parameter rectangle *)
Definition chord_v (F : R -> R -> vec3) (u0 u1 v0 v1 : R) : R := Rmax (dist3 (F u0 v0) (F u0 v1)) (dist3 (F u1 v0) (F u1 v1)).
Definition chord_u (F : R -> R -> vec3) (u0 u1 v0 v1 : R) : R := Rmax (dist3 (F u0 v0) (F u1 v0)) (dist3 (F u0 v1) (F u1 v1)).

(** Halving a rectangle of the class [D] halves, at most, the chords in that direction, and does
    not lengthen the other ones. *)
Record gentle (F : R -> R -> vec3) (D : R -> R -> R -> R -> Prop) : Prop := {
  gentle_v : forall u0 u1 v0 v1, D u0 u1 v0 v1 ->
    D u0 u1 v0 ((v0 + v1) / 2) /\ D u0 u1 ((v0 + v1) / 2) v1 /\
    chord_v F u0 u1 v0 v1 <= 2 * chord_v F u0 u1 v0 ((v0 + v1) / 2) /\
    chord_v F u0 u1 v0 v1 <= 2 * chord_v F u0 u1 ((v0 + v1) / 2) v1 /\
    chord_u F u0 u1 v0 ((v0 + v1) / 2) <= chord_u F u0 u1 v0 v1 /\
    chord_u F u0 u1 ((v0 + v1) / 2) v1 <= chord_u F u0 u1 v0 v1;
  gentle_u : forall u0 u1 v0 v1, D u0 u1 v0 v1 ->
    D u0 ((u0 + u1) / 2) v0 v1 /\ D ((u0 + u1) / 2) u1 v0 v1 /\
    chord_u F u0 u1 v0 v1 <= 2 * chord_u F u0 ((u0 + u1) / 2) v0 v1 /\
    chord_u F u0 u1 v0 v1 <= 2 * chord_u F ((u0 + u1) / 2) u1 v0 v1 /\
    chord_v F u0 ((u0 + u1) / 2) v0 v1 <= chord_v F u0 u1 v0 v1 /\
    chord_v F ((u0 + u1) / 2) u1 v0 v1 <= chord_v F u0 u1 v0 v1 }.

(** parameters of the sides of a quad of a section *)
Definition cu (r : rect) (d i : nat) : R := fst (fst r) + (snd (fst r) - fst (fst r)) / pw d * INR i.
Definition cv (r : rect) (d j : nat) : R := fst (snd r) + (snd (snd r) - fst (snd r)) / pw d * INR j.
Lemma cu_double r d i : cu r (S d) (2 * i) = cu r d i.
Proof. unfold cu. rewrite pw_S, mult_INR. simpl (INR 2). pose proof (pw_pos d). field. lra. Qed.
Lemma cv_double r d i : cv r (S d) (2 * i) = cv r d i.
Proof. unfold cv. rewrite pw_S, mult_INR. simpl (INR 2). pose proof (pw_pos d). field. lra. Qed.
Lemma cu_half r d i : cu r (S d) (2 * i + 1) = (cu r d i + cu r d (i + 1)) / 2.
Proof. unfold cu. rewrite pw_S, !plus_INR, mult_INR. simpl (INR 2). simpl (INR 1). pose proof (pw_pos d). field. lra. Qed.
Lemma cv_half r d i : cv r (S d) (2 * i + 1) = (cv r d i + cv r d (i + 1)) / 2.
Proof. unfold cv. rewrite pw_S, !plus_INR, mult_INR. simpl (INR 2). simpl (INR 1). pose proof (pw_pos d). field. lra. Qed.
Lemma cu_two r d i : cu r (S d) (2 * i + 2) = cu r d (i + 1).
Proof. replace (2 * i + 2)%nat with (2 * (i + 1))%nat by lia. apply cu_double. Qed.
Lemma cv_two r d i : cv r (S d) (2 * i + 2) = cv r d (i + 1).
Proof. replace (2 * i + 2)%nat with (2 * (i + 1))%nat by lia. apply cv_double. Qed.

Definition section_total (s : surface) (F : R -> R -> vec3) (r : rect) : Prop :=
  forall u v, fst (fst r) <= u <= snd (fst r) -> fst (snd r) <= v <= snd (snd r) -> sfun s u v = Ok (F u v).

Lemma cu_range r d i : fst (fst r) <= snd (fst r) -> (i <= 2 ^ d)%nat -> fst (fst r) <= cu r d i <= snd (fst r).
Proof.
  intros H Hi. apply le_INR in Hi. rewrite INR_pow in Hi. pose proof (pos_INR i). pose proof (pw_pos d) as Hp. unfold cu.
  set (a := fst (fst r)) in *. set (b := snd (fst r)) in *.
  assert (E : (b - a) / pw d * INR i = (b - a) * (INR i / pw d)) by (field; lra). rewrite E.
  assert (0 <= INR i / pw d <= 1).
  { split; [apply Rmult_le_pos; [lra|apply Rlt_le, Rinv_0_lt_compat; lra]|].
    apply Rmult_le_reg_r with (pw d); [lra|]. unfold Rdiv. rewrite Rmult_assoc, Rinv_l by lra. lra. }
  nra.
Qed.
Lemma cv_range r d j : fst (snd r) <= snd (snd r) -> (j <= 2 ^ d)%nat -> fst (snd r) <= cv r d j <= snd (snd r).
Proof. intros H Hj. apply (cu_range (snd r, fst r) d j H Hj). Qed.

Lemma section_eval s F r d i j : section_total s F r -> fst (fst r) <= snd (fst r) -> fst (snd r) <= snd (snd r) ->
  (i <= 2 ^ d)%nat -> (j <= 2 ^ d)%nat -> index_to_point (rsection s r) d i j = Ok (F (cu r d i) (cv r d j)).
Proof.
  intros HF Hu Hv Hi Hj. rewrite section_point. unfold to_param. cbn [fst snd]. apply HF; [apply (cu_range r d i Hu Hi)|apply (cv_range r d j Hv Hj)].
Qed.
Definition q_hor F r (q : quad) : R := chord_v F (cu r (qd q) (qi0 q)) (cu r (qd q) (qi1 q)) (cv r (qd q) (qj0 q)) (cv r (qd q) (qj1 q)).
Definition q_ver F r (q : quad) : R := chord_u F (cu r (qd q) (qi0 q)) (cu r (qd q) (qi1 q)) (cv r (qd q) (qj0 q)) (cv r (qd q) (qj1 q)).
Definition q_centre (F : R -> R -> vec3) r (q : quad) : vec3 :=
  centre4 (F (cu r (qd q) (qi0 q)) (cv r (qd q) (qj0 q))) (F (cu r (qd q) (qi0 q)) (cv r (qd q) (qj1 q)))
          (F (cu r (qd q) (qi1 q)) (cv r (qd q) (qj0 q))) (F (cu r (qd q) (qi1 q)) (cv r (qd q) (qj1 q))).
Lemma decision_at s F r msize q : section_total s F r -> fst (fst r) <= snd (fst r) -> fst (snd r) <= snd (snd r) -> wfq q ->
  decision (index_to_point (rsection s r)) (decide_split msize) q =
  (ms <- msize (q_centre F r q) ;; Ok (too_long ms (q_hor F r q) (q_ver F r q), too_long ms (q_ver F r q) (q_hor F r q))).
Proof.
  intros HF Hu Hv (W1 & W2 & W3 & W4). unfold decision.
  rewrite !(section_eval s F r) by (auto; lia). cbn [bind]. reflexivity.
Qed.
Lemma too_long_true ms a b : too_long ms a b = true <-> ms < a \/ (5/2 * b < a /\ 1/8 * ms < a).
Proof. unfold too_long. rewrite orb_true_iff, andb_true_iff, !Rltb_true. tauto. Qed.
Lemma too_long_false ms a b : too_long ms a b = false <-> a <= ms /\ (a <= 5/2 * b \/ a <= 1/8 * ms).
Proof.
  destruct (too_long ms a b) eqn:E.
  - apply too_long_true in E. split; [discriminate|]. intros H. exfalso. lra.
  - split; [|reflexivity]. intros _. assert (H : ~ (ms < a \/ (5/2 * b < a /\ 1/8 * ms < a))) by (rewrite <- too_long_true; congruence). lra.
Qed.

Lemma some_inj {A} (a b : A) : Some a = Some b -> a = b.
Proof. congruence. Qed.

(** coverage for gentle surfaces and a constant mesh size *)
Section Cover.
  Variables (s : surface) (F : R -> R -> vec3) (r : rect) (D : R -> R -> R -> R -> Prop) (ms : R) (sd : nat).
  Hypothesis HF : section_total s F r.
  Hypothesis Hu : fst (fst r) <= snd (fst r).
  Hypothesis Hv : fst (snd r) <= snd (snd r).
  Hypothesis Hg : gentle F D.
  Hypothesis Hstart : forall i j, (i < 2 ^ sd)%nat -> (j < 2 ^ sd)%nat ->
    D (cu r sd i) (cu r sd (i + 1)) (cv r sd j) (cv r sd (j + 1)).
  Hypothesis Hms : 0 <= ms.
  Definition Dq q := D (cu r (qd q) (qi0 q)) (cu r (qd q) (qi1 q)) (cv r (qd q) (qj0 q)) (cv r (qd q) (qj1 q)).
  Definition Kq q : Prop := Dq q /\
    ((qi1 q = qi0 q + 1)%nat \/ (q_ver F r q <= ms /\ (q_ver F r q <= 5/2 * q_hor F r q))) /\
    ((qj1 q = qj0 q + 1)%nat \/ (q_hor F r q <= ms /\ (q_hor F r q <= 5/2 * q_ver F r q))).

  Lemma chord_nonneg_u u0 u1 v0 v1 : 0 <= chord_u F u0 u1 v0 v1.
  Proof. unfold chord_u. eapply Rle_trans; [|apply Rmax_l]. apply norm_nonneg. Qed.
  Lemma chord_nonneg_v u0 u1 v0 v1 : 0 <= chord_v F u0 u1 v0 v1.
  Proof. unfold chord_v. eapply Rle_trans; [|apply Rmax_l]. apply norm_nonneg. Qed.

  Lemma Kq_step q h v children : wfq q -> Kq q ->
    decision (index_to_point (rsection s r)) (decide_split (fun _ => Ok ms)) q = Ok (h, v) -> split q h v = Some children ->
    (h = true -> qj1 q = qj0 q + 1)%nat /\ (v = true -> qi1 q = qi0 q + 1)%nat /\ Forall Kq children.
  Proof.
    intros W (HD & Hi & Hj) Hd Hs. rewrite (decision_at s F r) in Hd by assumption. cbn [bind] in Hd.
    injection Hd as Hh Hvv.
    pose proof (chord_nonneg_u (cu r (qd q) (qi0 q)) (cu r (qd q) (qi1 q)) (cv r (qd q) (qj0 q)) (cv r (qd q) (qj1 q))) as N1.
    pose proof (chord_nonneg_v (cu r (qd q) (qi0 q)) (cu r (qd q) (qi1 q)) (cv r (qd q) (qj0 q)) (cv r (qd q) (qj1 q))) as N2.
    fold (q_ver F r q) in N1. fold (q_hor F r q) in N2.
    assert (Hj1 : h = true -> (qj1 q = qj0 q + 1)%nat).
    { intros ->. apply too_long_true in Hh. destruct Hj as [Hj|Hj]; [exact Hj|]. exfalso. lra. }
    assert (Hi1 : v = true -> (qi1 q = qi0 q + 1)%nat).
    { intros ->. apply too_long_true in Hvv. destruct Hi as [Hi|Hi]; [exact Hi|]. exfalso. lra. }
    split; [exact Hj1|]. split; [exact Hi1|].
    unfold Dq in HD.
    set (u0 := cu r (qd q) (qi0 q)) in *. set (u1 := cu r (qd q) (qi1 q)) in *.
    set (v0 := cv r (qd q) (qj0 q)) in *. set (v1 := cv r (qd q) (qj1 q)) in *.
    destruct h, v; cbv beta iota zeta delta [split] in Hs; try discriminate; apply some_inj in Hs; subst children.
    - specialize (Hj1 eq_refl). specialize (Hi1 eq_refl).
      destruct (gentle_v _ _ Hg _ _ _ _ HD) as (D1 & D2 & _).
      destruct (gentle_u _ _ Hg _ _ _ _ D1) as (D3 & D4 & _). destruct (gentle_u _ _ Hg _ _ _ _ D2) as (D5 & D6 & _).
      repeat apply Forall_cons; try apply Forall_nil; (split; [unfold Dq; cbn [qd qi0 qi1 qj0 qj1];
        rewrite ?cu_half, ?cv_half, ?cu_two, ?cv_two, ?cu_double, ?cv_double; rewrite <- ?Hi1, <- ?Hj1; assumption
        | split; left; cbn [qi0 qi1 qj0 qj1]; lia]).
    - specialize (Hj1 eq_refl). apply too_long_true in Hh. apply too_long_false in Hvv.
      destruct (gentle_v _ _ Hg _ _ _ _ HD) as (D1 & D2 & C1 & C2 & C3 & C4).
      change (chord_v F u0 u1 v0 v1) with (q_hor F r q) in *. change (chord_u F u0 u1 v0 v1) with (q_ver F r q) in *.
      repeat apply Forall_cons; try apply Forall_nil; (split; [unfold Dq; cbn [qd qi0 qi1 qj0 qj1];
        rewrite ?cu_half, ?cv_half, ?cu_two, ?cv_two, ?cu_double, ?cv_double; rewrite <- ?Hj1; assumption
        | split; [right|left; cbn [qi0 qi1 qj0 qj1]; lia]; unfold q_ver, q_hor; cbn [qd qi0 qi1 qj0 qj1];
        rewrite ?cu_half, ?cv_half, ?cu_two, ?cv_two, ?cu_double, ?cv_double; rewrite <- ?Hj1; fold u0 u1 v0 v1; lra]).
    - specialize (Hi1 eq_refl). apply too_long_true in Hvv. apply too_long_false in Hh.
      destruct (gentle_u _ _ Hg _ _ _ _ HD) as (D1 & D2 & C1 & C2 & C3 & C4).
      change (chord_v F u0 u1 v0 v1) with (q_hor F r q) in *. change (chord_u F u0 u1 v0 v1) with (q_ver F r q) in *.
      repeat apply Forall_cons; try apply Forall_nil; (split; [unfold Dq; cbn [qd qi0 qi1 qj0 qj1];
        rewrite ?cu_half, ?cv_half, ?cu_two, ?cv_two, ?cu_double, ?cv_double; rewrite <- ?Hi1; assumption
        | split; [left; cbn [qi0 qi1 qj0 qj1]; lia|right]; unfold q_ver, q_hor; cbn [qd qi0 qi1 qj0 qj1];
        rewrite ?cu_half, ?cv_half, ?cu_two, ?cv_two, ?cu_double, ?cv_double; rewrite <- ?Hi1; fold u0 u1 v0 v1; lra]).
  Qed.

  Lemma gentle_cover fuel out :
    section_quads fuel (decide_split (fun _ => Ok ms)) sd (index_to_point (rsection s r)) = Ok out ->
    forall X Y, 0 <= X <= 1 -> 0 <= Y <= 1 -> exists q, In q out /\ closed_cell q X Y.
  Proof.
    intros H. apply (quads_cover _ Kq) in H; [apply H| |].
    - intros q Hq. unfold start_quads, number_of_indices in Hq. rewrite Nat.add_sub in Hq. apply in_flat_map in Hq.
      destruct Hq as (i & Hi & Hq). apply in_map_iff in Hq. destruct Hq as (j & <- & Hj). apply in_seq in Hi, Hj.
      split; [exact (Hstart i j (proj2 Hi) (proj2 Hj))|]. split; left; reflexivity.
    - intros q h v children. apply Kq_step.
  Qed.
End Cover.
