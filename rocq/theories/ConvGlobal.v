(** From the local to the global error of a trajectory. *)
From Coq Require Import Reals Lra Lia Psatz.
From Coquelicot Require Import Coquelicot.
From Verif Require Import Base BaseFacts Vec TracingModel TracingFacts ConvSpec ConvFacts ConvStep ConvLocal.
Local Open Scope R_scope.

Lemma below_div a b x : 0 < a -> x <= b / a -> a * x <= b.
Proof. intros Ha H. apply (Rmult_le_compat_l a) in H; [|lra]. replace (a * (b / a)) with b in H by (field; lra). exact H. Qed.

Section Global.
  Variables (field : field_fun) (u : R -> state) (T rho M : R).
  Variables (D1 : R -> state -> state) (D2 : R -> state -> state -> state) (D3 : R -> state -> state -> state -> state) (D4 : R -> state -> state -> state -> state -> state).
  Hypothesis Sm : smooth_along field u T rho M D1 D2 D3 D4.
  Hypothesis Su : solves field T u.
  Let HM : 0 < M. Proof. exact (proj2 (sm_radius _ _ _ _ _ _ _ _ _ Sm)). Qed.
  Let Hrho : 0 < rho. Proof. exact (proj1 (sm_radius _ _ _ _ _ _ _ _ _ Sm)). Qed.
  Theorem local_exists : exists C h0, 0 <= C /\ 0 < h0 <= 1 /\ forall t h, 0 <= t -> 0 <= h <= h0 -> t + h <= T -> exists ks, rk_stages field h (u t) = Ok ks /\
    snorm (ssub (step_state (u t) ks) (u (t + h))) <= C * h ^ 6 /\ snorm (accumulate szero CT ks) <= C * h ^ 5.
  Proof.
    pose proof (ftube_pos _ _ _ _ _ _ _ _ _ Sm) as Ft. set (Q := ftube rho M) in *.
    assert (Y : forall x y, 0 < x -> 0 < y -> 0 < Rmin x y /\ Rmin x y <= x /\ Rmin x y <= y) by (intros x y Hx Hy; split; [apply Rmin_glb_lt; assumption|split; [apply Rmin_l|apply Rmin_r]]).
    assert (P1 : 0 < rho / (16 * Q)) by (apply Rdiv_lt_0_compat; lra). destruct (Y 1 (rho / (16 * Q)) ltac:(lra) P1) as (X1 & X2 & X3). set (h1 := Rmin 1 (rho / (16 * Q))) in *.
    assert (T1 : 16 * (Q * h1) <= rho) by (apply (Rmult_le_compat_r (16 * Q)) in X3; [unfold Rdiv in X3; rewrite Rmult_assoc, Rinv_l, Rmult_1_r in X3 by lra; lra|lra]).
    destruct (O_ev field u T rho M D1 D2 D3 D4 Sm h1 (conj X1 X2) 17 exact) as (K & HK & HKb).
    assert (P2 : 0 < rho / (K + 1)) by (apply Rdiv_lt_0_compat; lra). destruct (Y h1 (rho / (K + 1)) X1 P2) as (X4 & X5 & X6). set (h0 := Rmin h1 (rho / (K + 1))) in *.
    assert (T2 : (K + 1) * h0 <= rho) by (apply (Rmult_le_compat_r (K + 1)) in X6; [unfold Rdiv in X6; rewrite Rmult_assoc, Rinv_l, Rmult_1_r in X6 by lra; lra|lra]).
    assert (H0 : 0 < h0 <= 1) by lra.
    assert (T0 : 16 * (ftube rho M * h0) <= rho) by (fold Q; assert (Q * h0 <= Q * h1) by (apply Rmult_le_compat_l; lra); lra).
    destruct (local_error field u T rho M D1 D2 D3 D4 Sm Su h0 H0 T0) as (C & HC & HL).
    { intros t h (A & B & E). assert (D' : dom T h1 t h) by (repeat split; lra). specialize (HKb t h D'). rewrite pow_1 in HKb. eapply Rle_trans; [exact HKb|].
      eapply Rle_trans; [|exact T2]. apply Rmult_le_compat; lra. }
    exists C, h0. split; [exact HC|]. split; [exact H0|]. intros t h A B E. apply HL. repeat split; lra.
  Qed.
  (** ** A step depends on the state in a Lipschitz continuous way *)
  Lemma accumulate_diff B : 0 <= B -> forall b ks ks' z z', Forall2 (fun k k' => snorm (ssub k k') <= B) ks ks' ->
    snorm (ssub (accumulate z b ks) (accumulate z' b ks')) <= snorm (ssub z z') + labs b * B.
  Proof.
    intros HB. induction b as [|x b IH]; intros ks ks' z z' H; [unfold accumulate; cbn; lra|].
    inversion H as [|k k' l l' Hk Hl]; subst; [unfold accumulate; cbn [combine fold_left labs]; pose proof (labs_pos b); pose proof (Rabs_pos x); nra|].
    unfold accumulate in *. cbn [combine fold_left labs fst snd]. eapply Rle_trans; [apply IH; exact Hl|].
    replace (ssub (sadd z (sscale x k)) (sadd z' (sscale x k'))) with (sadd (ssub z z') (sscale x (ssub k k'))) by (unfold ssub; state_ring).
    pose proof (snorm_add (ssub z z') (sscale x (ssub k k'))) as P. rewrite snorm_scale in P. pose proof (Rabs_pos x). nra.
  Qed.
  Lemma stages_lipschitz t h y : 0 <= t <= T -> 0 <= h <= 1 -> 32 * M * h <= 1 -> 32 * (ftube rho M * h) <= rho -> snorm (ssub y (u t)) <= rho / 4 ->
    forall bs ks ks' r r', Forall (fun b => labs b <= 16) bs ->
    Forall2 (fun k k' => snorm (ssub k k') <= 2 * M * h * snorm (ssub y (u t))) ks ks' -> Forall (fun k => snorm k <= ftube rho M * h) ks' ->
    stages field h y bs ks = Ok r -> stages field h (u t) bs ks' = Ok r' ->
    Forall2 (fun k k' => snorm (ssub k k') <= 2 * M * h * snorm (ssub y (u t))) r r'.
  Proof.
    intros Ht Hh Hm Hf Hy. set (dl := snorm (ssub y (u t))) in *. assert (Hd : 0 <= dl) by apply snorm_pos. pose proof (ftube_pos _ _ _ _ _ _ _ _ _ Sm) as Ft.
    assert (HB : 0 <= 2 * M * h * dl) by (repeat apply Rmult_le_pos; lra). assert (HF : 0 <= ftube rho M * h) by (apply Rmult_le_pos; lra).
    assert (Hs : 16 * (2 * M * h * dl) <= dl) by (replace (16 * (2 * M * h * dl)) with (32 * M * h * dl) by ring; nra).
    induction bs as [|b bs IH]; intros ks ks' r r' Hb H2 Hk E E'.
    - injection E as <-. injection E' as <-. exact H2.
    - inversion Hb as [|? ? Hb0 Hbs]; subst. cbn [stages] in E, E'. apply bind_ok in E. destruct E as (k & Ek & E). apply bind_ok in E'. destruct E' as (k' & Ek' & E').
      set (Y := accumulate y b ks) in *. set (Y' := accumulate (u t) b ks') in *.
      unfold produce_new_k in Ek, Ek'. apply bind_ok in Ek. destruct Ek as (F & HF1 & Ek). injection Ek as <-. apply bind_ok in Ek'. destruct Ek' as (F' & HF1' & Ek'). injection Ek' as <-.
      pose proof (accumulate_diff _ HB b ks ks' y (u t) H2) as AD. fold Y Y' in AD. fold dl in AD. pose proof (labs_pos b) as Lb.
      assert (DY : snorm (ssub Y Y') <= 2 * dl). { eapply Rle_trans; [exact AD|]. assert (labs b * (2 * M * h * dl) <= 16 * (2 * M * h * dl)) by (apply Rmult_le_compat_r; assumption). lra. }
      assert (TY' : snorm (ssub Y' (u t)) <= rho / 2).
      { unfold Y'. rewrite accumulate_zero. replace (ssub (sadd (u t) (accumulate szero b ks')) (u t)) with (accumulate szero b ks') by (generalize (accumulate szero b ks') (u t); intros; unfold ssub; destruct_states; state_ring).
        eapply Rle_trans; [apply (accumulate_bound _ HF b ks' szero Hk)|]. rewrite snorm_zero. assert (labs b * (ftube rho M * h) <= 16 * (ftube rho M * h)) by (apply Rmult_le_compat_r; assumption). lra. }
      assert (TY : snorm (ssub Y (u t)) <= rho). { eapply Rle_trans; [apply (ssub_triangle Y Y' (u t))|]. lra. }
      assert (EY : sadd (u t) (ssub Y (u t)) = Y) by apply ssub_add. assert (EY' : sadd (u t) (ssub Y' (u t)) = Y') by apply ssub_add.
      set (g := mkstate (s_vel Y) (vscale EM F)). set (g' := mkstate (s_vel Y') (vscale EM F')).
      assert (Rg : rate field (sadd (u t) (ssub Y (u t))) g) by (rewrite EY; exists F; auto). assert (Rg' : rate field (sadd (u t) (ssub Y' (u t))) g') by (rewrite EY'; exists F'; auto).
      assert (TY2 : snorm (ssub Y' (u t)) <= rho) by lra. pose proof (sm_lipschitz _ _ _ _ _ _ _ _ _ Sm t _ _ _ _ Ht TY TY2 Rg Rg') as LG.
      replace (ssub (ssub Y (u t)) (ssub Y' (u t))) with (ssub Y Y') in LG by (generalize Y Y' (u t); intros; unfold ssub; state_ring).
      assert (Kg : mkstate (vscale h (s_vel Y)) (vscale (h * EM) F) = sscale h g) by (unfold g, sscale; cbn [s_pos s_vel]; f_equal; apply vec_eq; cbn -[EM]; ring).
      assert (Kg' : mkstate (vscale h (s_vel Y')) (vscale (h * EM) F') = sscale h g') by (unfold g', sscale; cbn [s_pos s_vel]; f_equal; apply vec_eq; cbn -[EM]; ring).
      rewrite Kg in E. rewrite Kg' in E'. apply (IH (ks ++ [sscale h g]) (ks' ++ [sscale h g']) r r' Hbs); [| |exact E|exact E'].
      + apply Forall2_app; [exact H2|]. constructor; [|constructor]. replace (ssub (sscale h g) (sscale h g')) with (sscale h (ssub g g')) by (generalize g g'; intros; unfold ssub; state_ring).
        rewrite snorm_scale, Rabs_pos_eq by lra. assert (M * snorm (ssub Y Y') <= M * (2 * dl)) by (apply Rmult_le_compat_l; lra). replace (2 * M * h * dl) with (h * (M * (2 * dl))) by ring. apply Rmult_le_compat_l; lra.
      + apply Forall_app. split; [exact Hk|]. constructor; [|constructor]. rewrite snorm_scale, Rabs_pos_eq by lra. rewrite Rmult_comm. apply Rmult_le_compat_r; [lra|].
        rewrite <- (fv_rate _ _ _ Rg'). apply (f_bound field u T rho M D1 D2 D3 D4 Sm t _ Ht). lra.
  Qed.
  Lemma step_lipschitz t h y ks ks' : 0 <= t <= T -> 0 <= h <= 1 -> 32 * M * h <= 1 -> 32 * (ftube rho M * h) <= rho -> snorm (ssub y (u t)) <= rho / 4 ->
    rk_stages field h y = Ok ks -> rk_stages field h (u t) = Ok ks' -> snorm (ssub (step_state y ks) (step_state (u t) ks')) <= (1 + 32 * M * h) * snorm (ssub y (u t)).
  Proof.
    intros Ht Hh Hm Hf Hy E E'. destruct rows_abs as (R1 & R2 & _).
    pose proof (stages_lipschitz t h y Ht Hh Hm Hf Hy _ [] [] ks ks' R1 (Forall2_nil _) (Forall_nil _) E E') as L. pose proof (snorm_pos (ssub y (u t))) as P.
    assert (HB : 0 <= 2 * M * h * snorm (ssub y (u t))) by (repeat apply Rmult_le_pos; lra).
    unfold step_state. eapply Rle_trans; [apply (accumulate_diff _ HB CH ks ks' y (u t) L)|]. assert (labs CH * (2 * M * h * snorm (ssub y (u t))) <= 16 * (2 * M * h * snorm (ssub y (u t)))) by (apply Rmult_le_compat_r; assumption). lra.
  Qed.
  Lemma exp_ge x : 1 + x <= exp x.
  Proof. apply exp_ineq1_le. Qed.
  Theorem global_exists : exists C H0, 0 <= C /\ 0 < H0 /\ forall H (ts : nat -> R) (ys : nat -> state) n, 0 <= H <= H0 -> ts 0%nat = 0 -> ys 0%nat = u 0 ->
    (forall k, (k < n)%nat -> 0 <= ts (S k) - ts k <= H /\ exists ks, rk_stages field (ts (S k) - ts k) (ys k) = Ok ks /\ ys (S k) = step_state (ys k) ks) -> ts n <= T ->
    snorm (ssub (ys n) (u (ts n))) <= C * H ^ 5.
  Proof.
    destruct local_exists as (C & h0 & HC & Hh0 & HL). pose proof (ftube_pos _ _ _ _ _ _ _ _ _ Sm) as Ft. set (Q := ftube rho M) in *.
    set (L := 32 * M). destruct (Rle_dec 0 T) as [HT|NT].
    2:{ exists 0, 1. split; [lra|]. split; [lra|]. intros H ts ys n HH E0 Ey St Tn. exfalso. apply NT. clear - E0 St Tn. assert (P : forall m, (m <= n)%nat -> 0 <= ts m). { induction m as [|m IH]; intros Hm; [lra|]. destruct (St m ltac:(lia)) as (A & _). specialize (IH ltac:(lia)). lra. } specialize (P n ltac:(lia)). lra. }
    set (CT := C * T * exp (L * T)). assert (HE : 0 < exp (L * T)) by apply exp_pos. assert (HCT : 0 <= CT) by (unfold CT; apply Rmult_le_pos; [apply Rmult_le_pos; lra|lra]).
    set (H0 := Rmin (Rmin h0 (/ (32 * M))) (Rmin (rho / (32 * Q)) (rho / (4 * (CT + 1))))).
    assert (P0 : 0 < H0). { unfold H0. repeat apply Rmin_glb_lt; try lra; [apply Rinv_0_lt_compat; lra|apply Rdiv_lt_0_compat; lra|apply Rdiv_lt_0_compat; lra]. }
    exists CT, H0. split; [exact HCT|]. split; [exact P0|]. intros H ts ys n HH E0 Ey.
    assert (B1 : H <= h0) by (eapply Rle_trans; [apply HH|]; unfold H0; eapply Rle_trans; [apply Rmin_l|apply Rmin_l]).
    assert (B2 : 32 * M * H <= 1). { assert (B : H <= / (32 * M)) by (eapply Rle_trans; [apply HH|]; unfold H0; eapply Rle_trans; [apply Rmin_l|apply Rmin_r]). apply (Rmult_le_compat_l (32 * M)) in B; [|lra]. rewrite Rinv_r in B by lra. exact B. }
    assert (B3 : 32 * (Q * H) <= rho). { assert (B : H <= rho / (32 * Q)) by (eapply Rle_trans; [apply HH|]; unfold H0; eapply Rle_trans; [apply Rmin_r|apply Rmin_l]). apply below_div in B; lra. }
    assert (B4 : CT * H ^ 5 <= rho / 4). { assert (B : H <= rho / (4 * (CT + 1))) by (eapply Rle_trans; [apply HH|]; unfold H0; eapply Rle_trans; [apply Rmin_r|apply Rmin_r]).
      apply below_div in B; [|lra].
      assert (H ^ 5 <= H ^ 1) by (apply pow_mono; [lra|lia]). assert (0 <= H ^ 5) by (apply pow_le; lra). rewrite pow_1 in *. nra. }
    assert (P5 : 0 <= H ^ 5) by (apply pow_le; lra).
    assert (Ind : forall m, (forall k, (k < m)%nat -> 0 <= ts (S k) - ts k <= H /\ exists ks, rk_stages field (ts (S k) - ts k) (ys k) = Ok ks /\ ys (S k) = step_state (ys k) ks) -> ts m <= T ->
      0 <= ts m /\ snorm (ssub (ys m) (u (ts m))) <= C * H ^ 5 * ts m * exp (L * ts m)).
    { induction m as [|m IH]; intros St Tm.
      - rewrite E0, Ey, ssub_self, snorm_zero. split; [lra|]. rewrite Rmult_0_r, Rmult_0_l. lra.
      - destruct (St m ltac:(lia)) as ((Hp & HpH) & ks & Ek & Es). set (h := ts (S m) - ts m) in *. destruct (IH ltac:(intros; apply St; lia) ltac:(unfold h in *; lra)) as (Tm0 & Em). split; [unfold h in *; lra|].
        assert (Em4 : snorm (ssub (ys m) (u (ts m))) <= rho / 4).
        { eapply Rle_trans; [exact Em|]. eapply Rle_trans; [|exact B4]. unfold CT. replace (C * T * exp (L * T) * H ^ 5) with (C * H ^ 5 * T * exp (L * T)) by ring.
          assert (0 <= C * H ^ 5) by (apply Rmult_le_pos; lra). assert (ts m <= T) by (unfold h in *; lra). apply Rmult_le_compat; [apply Rmult_le_pos; lra|left; apply exp_pos|apply Rmult_le_compat_l; lra|].
          destruct (Rle_lt_or_eq_dec (L * ts m) (L * T) ltac:(apply Rmult_le_compat_l; [unfold L; lra|lra])) as [Lt|Eq]; [left; apply exp_increasing; exact Lt|rewrite Eq; lra]. }
        destruct (HL (ts m) h Tm0 ltac:(lra) ltac:(unfold h; lra)) as (ks' & Ek' & L6 & _).
        pose proof (step_lipschitz (ts m) h (ys m) ks ks' ltac:(unfold h in *; lra) ltac:(lra) ltac:(nra) ltac:(fold Q; nra) Em4 Ek Ek') as SL. fold L in SL.
        replace (ts m + h) with (ts (S m)) in L6 by (unfold h; ring). rewrite Es.
        eapply Rle_trans; [apply (ssub_triangle _ (step_state (u (ts m)) ks'))|].
        assert (A1 : C * h ^ 6 <= C * H ^ 5 * h). { rewrite Rmult_assoc. apply Rmult_le_compat_l; [lra|]. replace (h ^ 6) with (h ^ 5 * h) by ring. apply Rmult_le_compat_r; [lra|]. apply pow_incr. lra. }
        assert (A0 : 0 <= C * H ^ 5) by (apply Rmult_le_pos; lra).
        assert (Eh : ts (S m) = ts m + h) by (unfold h; ring). rewrite Eh. rewrite Eh in L6. replace (L * (ts m + h)) with (L * ts m + L * h) by ring. rewrite exp_plus.
        assert (X1 : 1 + L * h <= exp (L * h)) by apply exp_ge. assert (LP : 0 <= L * h) by (unfold L; nra).
        assert (X2 : 1 <= exp (L * ts m)). { eapply Rle_trans; [|apply exp_ge]. assert (0 <= L * ts m) by (unfold L; nra). lra. }
        assert (Z : 0 <= C * H ^ 5 * ts m * exp (L * ts m)) by (repeat apply Rmult_le_pos; try lra).
        set (W := snorm (ssub (ys m) (u (ts m)))) in *. assert (0 <= W) by apply snorm_pos.
        assert (Y1 : (1 + L * h) * W <= exp (L * h) * (C * H ^ 5 * ts m * exp (L * ts m))) by (apply Rmult_le_compat; lra).
        assert (Y2 : C * H ^ 5 * h <= C * H ^ 5 * h * (exp (L * ts m) * exp (L * h))). { rewrite <- (Rmult_1_r (C * H ^ 5 * h)) at 1. apply Rmult_le_compat_l; [apply Rmult_le_pos; lra|]. nra. }
        replace (C * H ^ 5 * (ts m + h) * (exp (L * ts m) * exp (L * h))) with (exp (L * h) * (C * H ^ 5 * ts m * exp (L * ts m)) + C * H ^ 5 * h * (exp (L * ts m) * exp (L * h))) by ring.
        lra. }
    intros St Tn. destruct (Ind n St Tn) as (Tn0 & En). eapply Rle_trans; [exact En|]. unfold CT. replace (C * T * exp (L * T) * H ^ 5) with (C * H ^ 5 * T * exp (L * T)) by ring.
    assert (0 <= C * H ^ 5) by (apply Rmult_le_pos; lra). apply Rmult_le_compat; [apply Rmult_le_pos; lra|left; apply exp_pos|apply Rmult_le_compat_l; lra|].
    destruct (Rle_lt_or_eq_dec (L * ts n) (L * T) ltac:(apply Rmult_le_compat_l; [unfold L; lra|lra])) as [Lt|Eq]; [left; apply exp_increasing; exact Lt|rewrite Eq; lra].
  Qed.
End Global.
