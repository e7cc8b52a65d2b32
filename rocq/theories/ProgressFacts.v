(** Traces end: in a force small against the energy of the electron every step advances and the electron leaves the bounds. *)
From Coq Require Import Reals Lra Lia Psatz.
From Verif Require Import Base BaseFacts Vec TracingModel TracingFacts ConvSpec ConvStep BemSmooth ProgressSpec.
Local Open Scope R_scope.

Lemma norm_zero_eq : norm vzero = 0.
Proof. apply norm_zero. reflexivity. Qed.
Lemma dot_norm a b : dot a b <= norm a * norm b.
Proof.
  pose proof (norm_nonneg a) as Na. pose proof (norm_nonneg b) as Nb. pose proof (norm_sq a) as Ea. pose proof (norm_sq b) as Eb.
  destruct (Rle_dec (dot a b) 0) as [L|G]; [pose proof (Rmult_le_pos _ _ Na Nb); lra|]. apply Rsqr_incr_0_var; [|apply Rmult_le_pos; assumption]. unfold Rsqr.
  replace (norm a * norm b * (norm a * norm b)) with (norm a * norm a * (norm b * norm b)) by ring. rewrite Ea, Eb.
  pose proof (dot_self_nonneg (cross a b)) as L. unfold dot, cross in *. cbn in *. nra.
Qed.
Lemma dot_norm_low a b : - (norm a * norm b) <= dot a b.
Proof.
  pose proof (dot_norm a (vneg b)) as H. replace (dot a (vneg b)) with (- dot a b) in H by (unfold dot; cbn; ring).
  replace (norm (vneg b)) with (norm b) in H by (apply norm_eq; unfold dot; cbn; ring). lra.
Qed.
Lemma max_abs_norm v : max_abs v <= norm v.
Proof.
  assert (Q : forall x, x * x <= dot v v -> Rabs x <= norm v).
  { intros x Hx. apply Rsqr_incr_0_var; [|apply norm_nonneg]. unfold Rsqr. rewrite norm_sq, Rabs_sq. exact Hx. }
  unfold max_abs. pose proof (Rle_0_sqr (vx v)). pose proof (Rle_0_sqr (vy v)). pose proof (Rle_0_sqr (vz v)). unfold Rsqr, dot in *.
  repeat apply Rmax_lub; apply Q; unfold dot; lra.
Qed.
Lemma vel_accumulate c : forall ks y B, Forall (fun k => norm (s_vel k) <= B) ks -> 0 <= B -> norm (vsub (s_vel (accumulate y c ks)) (s_vel y)) <= labs c * B.
Proof.
  unfold accumulate. induction c as [|x c IH]; intros ks y B H HB.
  - cbn [combine fold_left]. replace (vsub (s_vel y) (s_vel y)) with vzero by vec_ring. rewrite norm_zero_eq. cbn. lra.
  - pose proof (labs_pos c) as Lc. pose proof (Rabs_pos x). destruct ks as [|k ks]; cbn [combine fold_left].
    + replace (vsub (s_vel y) (s_vel y)) with vzero by vec_ring. rewrite norm_zero_eq. pose proof (labs_pos (x :: c)). apply Rmult_le_pos; assumption.
    + inversion H as [|? ? Hk Hks]; subst. specialize (IH ks (sadd y (sscale (fst (x, k)) (snd (x, k)))) B Hks HB). cbn [fst snd] in *.
      set (z := s_vel (fold_left _ _ _)) in *.
      pose proof (norm_triangle (vsub z (s_vel (sadd y (sscale x k)))) (vscale x (s_vel k))) as N. rewrite norm_scale in N.
      replace (vadd (vsub z (s_vel (sadd y (sscale x k)))) (vscale x (s_vel k))) with (vsub z (s_vel y)) in N by (generalize z; intros; destruct y, k; vec_ring).
      assert (Rabs x * norm (s_vel k) <= Rabs x * B) by (apply Rmult_le_compat_l; assumption). change (labs (x :: c)) with (Rabs x + labs c). lra.
Qed.
(** positions: [k] moves by [h] times a velocity near [v] *)
Definition moves (h : R) (v : vec3) (D : R) (k : state) : Prop := exists d, s_pos k = vscale h (vadd v d) /\ norm d <= D.
Fixpoint lsum (c : list R) : R := match c with [] => 0 | x :: c => x + lsum c end.
Lemma pos_accumulate h v D c : 0 <= h -> 0 <= D -> forall ks y, length c = length ks -> Forall (moves h v D) ks ->
  exists e, s_pos (accumulate y c ks) = vadd (s_pos y) (vadd (vscale (h * lsum c) v) e) /\ norm e <= h * (labs c * D).
Proof.
  intros Hh HD. unfold accumulate. induction c as [|x c IH]; intros [|k ks] y El H; try discriminate.
  - exists vzero. cbn [combine fold_left lsum]. split; [vec_ring|]. rewrite norm_zero_eq. cbn. lra.
  - injection El as El. inversion H as [|? ? (d & Ek & Hd) Hks]; subst. cbn [combine fold_left fst snd]. destruct (IH ks (sadd y (sscale x k)) El Hks) as (e & E & He).
    exists (vadd (vscale (h * x) d) e). rewrite E. split.
    + cbn [s_pos sadd sscale lsum]. rewrite Ek. vec_ring.
    + eapply Rle_trans; [apply norm_triangle|]. rewrite norm_scale, Rabs_mult, (Rabs_pos_eq h Hh). change (labs (x :: c)) with (Rabs x + labs c). pose proof (Rabs_pos x).
      assert (h * Rabs x * norm d <= h * Rabs x * D) by (apply Rmult_le_compat_l; [apply Rmult_le_pos; assumption|exact Hd]). lra.
Qed.
Lemma pos_reach h v D c : 0 <= h -> 0 <= D -> forall ks y, Forall (moves h v D) ks -> norm (vsub (s_pos (accumulate y c ks)) (s_pos y)) <= labs c * (h * (norm v + D)).
Proof.
  intros Hh HD. unfold accumulate. assert (Nv := norm_nonneg v). assert (P : 0 <= h * (norm v + D)) by (apply Rmult_le_pos; lra). induction c as [|x c IH]; intros ks y H.
  - cbn [combine fold_left]. replace (vsub (s_pos y) (s_pos y)) with vzero by vec_ring. rewrite norm_zero_eq. cbn. lra.
  - pose proof (labs_pos c) as Lc. pose proof (Rabs_pos x). destruct ks as [|k ks]; cbn [combine fold_left].
    + replace (vsub (s_pos y) (s_pos y)) with vzero by vec_ring. rewrite norm_zero_eq. pose proof (labs_pos (x :: c)). apply Rmult_le_pos; assumption.
    + inversion H as [|? ? (d & Ek & Hd) Hks]; subst. specialize (IH ks (sadd y (sscale (fst (x, k)) (snd (x, k)))) Hks). cbn [fst snd] in *.
      set (z := s_pos (fold_left _ _ _)) in *.
      pose proof (norm_triangle (vsub z (s_pos (sadd y (sscale x k)))) (vscale x (s_pos k))) as N. rewrite norm_scale in N.
      replace (vadd (vsub z (s_pos (sadd y (sscale x k)))) (vscale x (s_pos k))) with (vsub z (s_pos y)) in N by (generalize z; intros; destruct y, k; vec_ring).
      assert (norm (s_pos k) <= h * (norm v + D)). { rewrite Ek, norm_scale, (Rabs_pos_eq h Hh). apply Rmult_le_compat_l; [exact Hh|]. eapply Rle_trans; [apply norm_triangle|lra]. }
      assert (Rabs x * norm (s_pos k) <= Rabs x * (h * (norm v + D))) by (apply Rmult_le_compat_l; assumption). change (labs (x :: c)) with (Rabs x + labs c). lra.
Qed.
Lemma CH_sum : lsum CH = 1 /\ labs CH = 1.
Proof. unfold CH, labs, lsum. cbn [map fold_right]. split; [lra|]. rewrite !Rabs_pos_eq by lra. lra. Qed.
Lemma CT_sum : lsum CT = 0 /\ labs CT <= 1.
Proof. unfold CT, labs, lsum. cbn [map fold_right]. split; [lra|]. unfold Rabs. repeat destruct (Rcase_abs _); lra. Qed.
Lemma rows16 b : In b [[]; B2; B3; B4; B5; B6] -> labs b <= 16.
Proof. intros H. destruct rows_abs as [R _]. rewrite Forall_forall in R. apply R. exact H. Qed.
Lemma Forall_app_one {A} (P : A -> Prop) l x : Forall P l -> P x -> Forall P (l ++ [x]).
Proof. intros. apply Forall_app. auto. Qed.
Lemma vel_near v w d : norm (vsub v w) <= d -> norm v <= norm w + d.
Proof. intros H. pose proof (norm_triangle (vsub v w) w) as N. replace (vadd (vsub v w) w) with v in N by (destruct v, w; vec_ring). lra. Qed.

Section Step.
  Variables (field : field_fun) (bounds : box) (m vmax Fmax : R).
  Hypothesis HF : 0 <= Fmax.
  Hypothesis FB : force_bounded field bounds m vmax Fmax.
  Let A := Rabs EM * Fmax.
  Lemma A_pos : 0 <= A. Proof. apply Rmult_le_pos; [apply Rabs_pos|exact HF]. Qed.
  Variables (h : R) (y : state).
  Hypothesis Hh : 0 <= h.
  Hypothesis Hin : within bounds (s_pos y) = true.
  Hypothesis Hm : 16 * (h * (norm (s_vel y) + 16 * (h * A))) <= m.
  Hypothesis Hv : norm (s_vel y) + 16 * (h * A) <= vmax.
  Let good (k : state) := norm (s_vel k) <= h * A /\ moves h (s_vel y) (16 * (h * A)) k.
  Lemma stages_good : forall bs ks, (forall b, In b bs -> labs b <= 16) -> Forall good ks -> exists ks', stages field h y bs ks = Ok ks' /\ Forall good ks' /\ length ks' = (length bs + length ks)%nat.
  Proof.
    pose proof A_pos as HA. assert (HhA : 0 <= h * A) by (apply Rmult_le_pos; assumption).
    induction bs as [|b bs IH]; intros ks Hb Hk; [exists ks; split; [reflexivity|split; [exact Hk|reflexivity]]|]. cbn [stages].
    set (z := accumulate y b ks). specialize (Hb b (or_introl eq_refl)) as Hb16. pose proof (labs_pos b) as Lb.
    assert (V : norm (vsub (s_vel z) (s_vel y)) <= 16 * (h * A)).
    { eapply Rle_trans; [apply (vel_accumulate b ks y (h * A)); [|exact HhA]|apply Rmult_le_compat_r; assumption]. eapply Forall_impl; [|exact Hk]. intros k [Q _]. exact Q. }
    assert (X : norm (vsub (s_pos z) (s_pos y)) <= m).
    { eapply Rle_trans; [apply (pos_reach h (s_vel y) (16 * (h * A)) b Hh ltac:(lra) ks y)|]; [eapply Forall_impl; [|exact Hk]; intros k [_ Q]; exact Q|].
      eapply Rle_trans; [|exact Hm]. apply Rmult_le_compat_r; [|exact Hb16]. apply Rmult_le_pos; [exact Hh|]. pose proof (norm_nonneg (s_vel y)). lra. }
    destruct (FB (s_pos y) z Hin X ltac:(eapply Rle_trans; [apply vel_near; exact V|exact Hv])) as (F & EF & BF).
    unfold produce_new_k. rewrite EF. cbn [bind]. destruct (IH (ks ++ [mkstate (vscale h (s_vel z)) (vscale (h * EM) F)])) as (ks' & E & G & Len).
    - intros b' Hb'. apply Hb. right. exact Hb'.
    - apply Forall_app_one; [exact Hk|]. split; cbn [s_vel s_pos].
      + rewrite norm_scale, Rabs_mult, (Rabs_pos_eq h Hh), Rmult_assoc. apply Rmult_le_compat_l; [exact Hh|]. unfold A. apply Rmult_le_compat_l; [apply Rabs_pos|exact BF].
      + exists (vsub (s_vel z) (s_vel y)). split; [|exact V]. cbn [s_pos]. f_equal. destruct (s_vel z), (s_vel y). vec_ring.
    - exists ks'. split; [exact E|]. split; [exact G|]. rewrite Len, app_length. cbn. lia.
  Qed.
  Lemma step_good : exists ks, rk_stages field h y = Ok ks /\ step_error h ks <= 17 * A * (h * h) /\
    norm (vsub (s_vel (step_state y ks)) (s_vel y)) <= h * A /\
    exists e, s_pos (step_state y ks) = vadd (s_pos y) (vadd (vscale h (s_vel y)) e) /\ norm e <= h * (16 * (h * A)).
  Proof.
    pose proof A_pos as HA. assert (HhA : 0 <= h * A) by (apply Rmult_le_pos; assumption). destruct CH_sum as [S1 L1]. destruct CT_sum as [S2 L2]. pose proof (labs_pos CT) as LT.
    destruct (stages_good _ [] rows16 (Forall_nil _)) as (ks & E & G & Len). cbn in Len. exists ks. split; [exact E|].
    assert (Gv : Forall (fun k => norm (s_vel k) <= h * A) ks) by (eapply Forall_impl; [|exact G]; intros k [Q _]; exact Q).
    assert (Gm : Forall (moves h (s_vel y) (16 * (h * A))) ks) by (eapply Forall_impl; [|exact G]; intros k [_ Q]; exact Q). split; [|split].
    - unfold step_error. destruct (pos_accumulate h (s_vel y) (16 * (h * A)) CT Hh ltac:(lra) ks szero ltac:(rewrite Len; reflexivity) Gm) as (e & Ee & He).
      pose proof (vel_accumulate CT ks szero (h * A) Gv HhA) as Hvel. set (err := accumulate szero CT ks) in *.
      assert (Pe : norm (s_pos err) <= h * (16 * (h * A))).
      { rewrite Ee, S2, Rmult_0_r. replace (vadd (s_pos szero) (vadd (vscale 0 (s_vel y)) e)) with e by (destruct e, (s_vel y); vec_ring). eapply Rle_trans; [exact He|]. apply Rmult_le_compat_l; [exact Hh|]. nra. }
      assert (Ve : norm (s_vel err) <= h * A). { replace (vsub (s_vel err) (s_vel szero)) with (s_vel err) in Hvel by (destruct err as [? [? ? ?]]; vec_ring). eapply Rle_trans; [exact Hvel|]. nra. }
      pose proof (max_abs_norm (s_pos err)). pose proof (max_abs_norm (s_vel err)). assert (h * max_abs (s_vel err) <= h * (h * A)) by (apply Rmult_le_compat_l; lra). lra.
    - unfold step_state. eapply Rle_trans; [apply (vel_accumulate CH ks y (h * A) Gv HhA)|]. rewrite L1. lra.
    - destruct (pos_accumulate h (s_vel y) (16 * (h * A)) CH Hh ltac:(lra) ks y ltac:(rewrite Len; reflexivity) Gm) as (e & Ee & He). exists e. rewrite S1, Rmult_1_r in Ee. rewrite L1, Rmult_1_l in He. split; assumption.
  Qed.
End Step.
(** ** Step sizes *)
Lemma Rpower_fifth x : 0 < x -> Rpower (x ^ 5) 0.2 = x.
Proof.
  intros Hx. rewrite <- (Rpower_pow 5 x Hx), Rpower_mult. replace (INR 5 * 0.2) with 1 by (cbn; lra). apply Rpower_1. exact Hx.
Qed.
Lemma Rpower_mono x y : 0 < x <= y -> Rpower x 0.2 <= Rpower y 0.2.
Proof. intros H. apply Rle_Rpower_l; lra. Qed.
Lemma next_step_low h hmax atol error K hmin : 0 < hmin <= h -> hmin <= hmax -> 0 < atol -> 0 < K -> K * (hmin * hmin) <= 0.59049 * atol -> 0 <= error <= K * (h * h) ->
  hmin <= next_step h hmax atol error.
Proof.
  intros Hh Hx Ha HK Hs He. unfold next_step. destruct (Req_EM_T error 0) as [_|Ne]; [exact Hx|]. assert (Pe : 0 < error) by lra. cbv zeta.
  assert (Pq : 0 < atol / error) by (apply Rdiv_lt_0_compat; assumption). destruct (Rlt_dec (atol / error) 0); [lra|]. destruct (Req_EM_T (atol / error) 0); [lra|].
  apply Rmin_glb; [|exact Hx]. set (x := / 0.9 * (hmin / h)). assert (Hr : 0 < hmin / h <= 1). { split; [apply Rdiv_lt_0_compat; lra|]. apply (Rmult_le_reg_r h); [lra|]. unfold Rdiv. rewrite Rmult_assoc, Rinv_l by lra. lra. }
  assert (Px : 0 < x) by (unfold x; nra).
  assert (Q : x ^ 5 <= atol / error).
  { apply (Rmult_le_reg_r error); [exact Pe|]. unfold Rdiv at 1. rewrite Rmult_assoc, Rinv_l, Rmult_1_r by lra.
    apply Rle_trans with (x ^ 5 * (K * (h * h))); [apply Rmult_le_compat_l; [apply pow_le|]; lra|].
    assert (E : x ^ 5 * (K * (h * h)) = (hmin / h) ^ 3 * (K * (hmin * hmin)) * / 0.59049) by (assert (Eh : hmin / h * h = hmin) by (field; lra); rewrite <- Eh at 2 3; unfold x; set (r := hmin / h) in *; replace (/ 0.9) with (10 / 9) by lra; replace (/ 0.59049) with ((10 / 9) ^ 5) by lra; ring). rewrite E.
    assert (C3 : (hmin / h) ^ 3 <= 1) by (rewrite <- (pow1 3); apply pow_incr; lra). assert (0 <= K * (hmin * hmin)) by (apply Rmult_le_pos; nra). assert (0 <= (hmin / h) ^ 3) by (apply pow_le; lra). nra. }
  assert (P : x <= Rpower (atol / error) 0.2) by (rewrite <- (Rpower_fifth x Px); apply Rpower_mono; split; [apply pow_lt; exact Px|exact Q]).
  apply Rle_trans with (0.9 * h * x); [unfold x; right; field; lra|]. apply Rmult_le_compat_l; lra.
Qed.
Lemma next_step_max h hmax atol error : next_step h hmax atol error <= hmax.
Proof.
  unfold next_step. destruct (Req_EM_T _ _); [lra|]. cbv zeta. destruct (Rlt_dec _ _); [lra|]. destruct (Req_EM_T _ _); apply Rmin_r.
Qed.
Lemma next_step_rejected h hmax atol error : 0 < h -> 0 < atol -> atol < error -> next_step h hmax atol error <= 0.9 * h.
Proof.
  intros Hh Ha He. unfold next_step. destruct (Req_EM_T error 0); [lra|]. cbv zeta. assert (Pq : 0 < atol / error) by (apply Rdiv_lt_0_compat; lra).
  destruct (Rlt_dec _ _); [lra|]. destruct (Req_EM_T _ _); [lra|]. eapply Rle_trans; [apply Rmin_l|].
  assert (Q : Rpower (atol / error) 0.2 <= 1).
  { assert (atol / error <= 1 ^ 5). { rewrite pow1. apply (Rmult_le_reg_r error); [lra|]. unfold Rdiv. rewrite Rmult_assoc, Rinv_l by lra. lra. }
    rewrite <- (Rpower_fifth 1) by lra. apply Rpower_mono. split; assumption. }
  assert (0 < Rpower (atol / error) 0.2) by (unfold Rpower; apply exp_pos). nra.
Qed.
