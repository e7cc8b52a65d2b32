(** The loops of the tracer end. *)
From Coq Require Import Reals Lra Lia Psatz.
From Verif Require Import Base BaseFacts Vec TracingModel TracingFacts ConvSpec ConvStep BemSmooth ProgressSpec ProgressFacts.
Local Open Scope R_scope.

Lemma max_abs_nonneg v : 0 <= max_abs v.
Proof. unfold max_abs. eapply Rle_trans; [apply Rabs_pos|apply Rmax_r]. Qed.
Lemma step_error_nonneg h ks : 0 <= h -> 0 <= step_error h ks.
Proof. intros Hh. unfold step_error. pose proof (max_abs_nonneg (s_pos (accumulate szero CT ks))). pose proof (max_abs_nonneg (s_vel (accumulate szero CT ks))). nra. Qed.

Section Loop.
  Variables (field : field_fun) (bounds : box) (x0 v0 n : vec3) (Fmax L atol : R).
  Let w := dot n v0.
  Let V0 := norm v0.
  Let A := Rabs EM * Fmax.
  Hypothesis HF : 0 <= Fmax.
  Hypothesis HL : 0 <= L.
  Hypothesis Hn : norm n <= 1.
  Hypothesis Hw : 0 < w.
  Hypothesis Ha : 0 < atol.
  Hypothesis Small : (8 * L + 2) * A <= w * w.
  Hypothesis Ext : extent bounds n x0 L.
  Hypothesis FB : force_bounded field bounds (0.64 * (V0 / w)) (2 * V0) Fmax.
  Let Hm := 0.02 / w.
  Let Tend := 4 * L / w.
  Lemma A_nonneg : 0 <= A. Proof. apply Rmult_le_pos; [apply Rabs_pos|exact HF]. Qed.
  Lemma along d : dot n d <= norm d.
  Proof. eapply Rle_trans; [apply dot_norm|]. pose proof (norm_nonneg d). pose proof (norm_nonneg n). nra. Qed.
  Lemma along_low d : - norm d <= dot n d.
  Proof. eapply Rle_trans; [|apply dot_norm_low]. pose proof (norm_nonneg d). pose proof (norm_nonneg n). nra. Qed.
  Lemma w_V0 : w <= V0. Proof. apply along. Qed.
  Lemma Hm_pos : 0 < Hm. Proof. apply Rdiv_lt_0_compat; lra. Qed.
  Lemma Hm_w : Hm * w = 0.02.
  Proof. unfold Hm, Rdiv. rewrite Rmult_assoc, Rinv_l; [ring|apply Rgt_not_eq; exact Hw]. Qed.
  Lemma Tend_w : Tend * w = 4 * L.
  Proof. unfold Tend, Rdiv. rewrite Rmult_assoc, Rinv_l; [ring|apply Rgt_not_eq; exact Hw]. Qed.
  Lemma HmA : 16 * (Hm * A) <= w / 4.
  Proof.
    pose proof A_nonneg. apply (Rmult_le_reg_r w); [exact Hw|]. pose proof Hm_w as E. replace (16 * (Hm * A) * w) with (16 * A * (Hm * w)) by ring. rewrite E. nra.
  Qed.
  Lemma TendA : A * (Tend + Hm) <= w / 2.
  Proof.
    pose proof A_nonneg. apply (Rmult_le_reg_r w); [exact Hw|]. replace (A * (Tend + Hm) * w) with (A * (Tend * w + Hm * w)) by ring. rewrite Hm_w, Tend_w. nra.
  Qed.
  Definition inv (t : R) (y : state) : Prop :=
    0 <= t <= Tend + Hm /\ w - A * t <= dot n (s_vel y) /\ norm (s_vel y) <= V0 + A * t /\ t * (w / 4) <= dot n (vsub (s_pos y) x0).
  Lemma inv_speed t y : inv t y -> w / 2 <= dot n (s_vel y) /\ w / 2 <= norm (s_vel y) /\ norm (s_vel y) <= V0 + w / 2.
  Proof.
    intros (Ht & H1 & H2 & _). pose proof A_nonneg. pose proof TendA. assert (A * t <= A * (Tend + Hm)) by (apply Rmult_le_compat_l; lra).
    pose proof (along (s_vel y)). lra.
  Qed.
  Lemma inv_inside t y : inv t y -> within bounds (s_pos y) = true -> t <= Tend.
  Proof.
    intros (Ht & _ & _ & H3) W. specialize (Ext _ W). apply (Rmult_le_reg_r (w / 4)); [lra|]. replace (Tend * (w / 4)) with (Tend * w / 4) by lra. rewrite Tend_w. lra.
  Qed.
  Lemma inv_step t y h : inv t y -> within bounds (s_pos y) = true -> 0 <= h <= Hm ->
    exists ks, rk_stages field h y = Ok ks /\ step_error h ks <= 17 * A * (h * h) /\ inv (t + h) (step_state y ks).
  Proof.
    intros I W Hh. pose proof A_nonneg as HA. pose proof Hm_pos as HP. pose proof HmA as HX. pose proof w_V0 as HV. destruct (inv_speed _ _ I) as (S1 & S2 & S3). pose proof (inv_inside _ _ I W) as Ti.
    assert (HhA : 0 <= h * A <= Hm * A) by (split; [apply Rmult_le_pos; lra|apply Rmult_le_compat_r; lra]).
    assert (C1 : 16 * (h * (norm (s_vel y) + 16 * (h * A))) <= 0.64 * (V0 / w)).
    { apply Rle_trans with (16 * (Hm * (2 * V0))); [|right; unfold Hm, Rdiv; lra]. apply Rmult_le_compat_l; [lra|]. apply Rmult_le_compat; lra. }
    assert (C2 : norm (s_vel y) + 16 * (h * A) <= 2 * V0) by lra.
    destruct (step_good field bounds _ _ Fmax HF FB h y ltac:(lra) W C1 C2) as (ks & E & Er & Dv & e & Ex & He). fold A in Er, Dv, He.
    exists ks. split; [exact E|]. split; [exact Er|]. destruct I as (It & I1 & I2 & I3). split; [lra|]. split; [|split].
    - pose proof (along_low (vsub (s_vel (step_state y ks)) (s_vel y))) as Q. replace (dot n (vsub (s_vel (step_state y ks)) (s_vel y))) with (dot n (s_vel (step_state y ks)) - dot n (s_vel y)) in Q by (unfold dot; cbn; ring). lra.
    - apply vel_near in Dv. lra.
    - rewrite Ex. replace (dot n (vsub (vadd (s_pos y) (vadd (vscale h (s_vel y)) e)) x0)) with (dot n (vsub (s_pos y) x0) + h * dot n (s_vel y) + dot n e) by (unfold dot; cbn; ring).
      pose proof (along_low e). assert (h * (16 * (h * A)) <= h * (w / 4)) by (apply Rmult_le_compat_l; lra). assert (h * (w / 2) <= h * dot n (s_vel y)) by (apply Rmult_le_compat_l; lra). lra.
  Qed.
  Let K := 17 * A + 1.
  Definition hmin := Rmin (sqrt (0.59049 * atol / K)) (0.01 / (V0 + w)).
  Lemma K_pos : 0 < K. Proof. unfold K. pose proof A_nonneg. lra. Qed.
  Lemma hmin_pos : 0 < hmin.
  Proof.
    pose proof K_pos. pose proof w_V0. unfold hmin. apply Rmin_glb_lt; [apply sqrt_lt_R0; apply Rdiv_lt_0_compat; lra|apply Rdiv_lt_0_compat; lra].
  Qed.
  Lemma hmin_small : K * (hmin * hmin) <= 0.59049 * atol.
  Proof.
    pose proof K_pos as HK. pose proof hmin_pos as Hp. assert (Q : 0 <= 0.59049 * atol / K) by (left; apply Rdiv_lt_0_compat; lra).
    assert (S : hmin * hmin <= 0.59049 * atol / K). { rewrite <- (sqrt_sqrt _ Q). assert (hmin <= sqrt (0.59049 * atol / K)) by apply Rmin_l. apply Rmult_le_compat; lra. }
    apply (Rmult_le_compat_l K) in S; [|lra]. eapply Rle_trans; [exact S|]. right. field. lra.
  Qed.
  Lemma hmax_range t y : inv t y -> norm (s_vel y) <> 0 /\ hmin <= TRACING_STEP_MAX / norm (s_vel y) <= Hm.
  Proof.
    intros I. destruct (inv_speed _ _ I) as (S1 & S2 & S3). pose proof w_V0. split; [lra|]. unfold TRACING_STEP_MAX. split.
    - eapply Rle_trans; [apply Rmin_r|]. apply Rmult_le_compat_l; [lra|]. apply Rinv_le_contravar; lra.
    - unfold Hm. apply Rle_trans with (0.01 / (w / 2)); [apply Rmult_le_compat_l; [lra|]; apply Rinv_le_contravar; lra|right; unfold Rdiv; rewrite Rinv_mult, Rinv_inv; lra].
  Qed.
  Variable J : nat.
  Hypothesis HJ : Hm * 0.9 ^ J < hmin.
  Lemma loop_ends block hmax : hmin <= hmax <= Hm -> forall fuel a j N t y h, inv t y -> hmin <= h <= hmax -> (j <= J)%nat -> h <= Hm * 0.9 ^ j -> Tend < t + INR a * hmin -> (a * (J + 1) + (J - j) < fuel)%nat ->
    exists rest, trace_loop fuel block field bounds atol hmax N t y h = Ok rest /\ Forall (fun s => inv (fst s) (snd s) /\ t + hmin <= fst s) rest.
  Proof.
    intros Hx. pose proof hmin_pos as Hp. pose proof K_pos as HK. pose proof Hm_pos as HmP. induction fuel as [|fuel IH]; intros a j N t y h I Hh Hj Hd Ht Hf; [lia|]. cbn [trace_loop].
    destruct (within bounds (s_pos y)) eqn:W; [|exists []; split; [reflexivity|constructor]].
    pose proof (inv_inside _ _ I W) as Ti. destruct a as [|a]; [cbn [INR] in Ht; lra|].
    destruct (inv_step t y h I W ltac:(lra)) as (ks & E & Er & I'). rewrite E. cbn [bind]. cbv zeta.
    assert (Er0 : 0 <= step_error h ks <= K * (h * h)) by (split; [apply step_error_nonneg; lra|eapply Rle_trans; [exact Er|]; apply Rmult_le_compat_r; [nra|unfold K; lra]]).
    pose proof (next_step_low h hmax atol (step_error h ks) K hmin ltac:(lra) ltac:(lra) Ha HK hmin_small Er0) as Low. pose proof (next_step_max h hmax atol (step_error h ks)) as High.
    set (h' := next_step h hmax atol (step_error h ks)) in *. rewrite S_INR in Ht.
    destruct (Rle_dec (step_error h ks) atol) as [Acc|Rej].
    - destruct (N + 1 =? block)%nat; [eexists; split; [reflexivity|]; constructor; [cbn [fst snd]; split; [exact I'|lra]|constructor]|].
      destruct (IH a 0%nat (N + 1)%nat (t + h) (step_state y ks) h' I' ltac:(lra) ltac:(lia) ltac:(rewrite pow_O; lra) ltac:(lra) ltac:(lia)) as (rest & Er1 & Fr).
      rewrite Er1. cbn [bind]. eexists. split; [reflexivity|]. constructor; [cbn [fst snd]; split; [exact I'|lra]|]. eapply Forall_impl; [|exact Fr]. intros s [P1 P2]. split; [exact P1|lra].
    - pose proof (next_step_rejected h hmax atol (step_error h ks) ltac:(lra) Ha ltac:(lra)) as Rj. fold h' in Rj.
      assert (D' : h' <= Hm * 0.9 ^ S j) by (change (0.9 ^ S j) with (0.9 * 0.9 ^ j); lra).
      assert (Lt : (j < J)%nat).
      { destruct (Nat.lt_ge_cases j J) as [Q|Q]; [exact Q|]. exfalso. assert (j = J) by lia. subst j. assert (0 <= 0.9 ^ J) by (apply pow_le; lra). change (0.9 ^ S J) with (0.9 * 0.9 ^ J) in D'. nra. }
      destruct (IH (S a) (S j) N t y h' I ltac:(lra) ltac:(lia) D' ltac:(rewrite S_INR; lra) ltac:(lia)) as (rest & Er1 & Fr). exists rest. split; [exact Er1|exact Fr].
  Qed.
  Lemma blocks_end block inner : (2 <= block)%nat -> forall a fuel first t y, inv t y -> Tend + Hm < t + INR a * hmin -> (a <= fuel)%nat -> (a * (J + 1) + J < inner)%nat ->
    exists samples, trace_blocks fuel inner block field bounds atol first t y = Ok samples /\ Forall (fun s => inv (fst s) (snd s)) samples.
  Proof.
    intros Hb. pose proof hmin_pos as Hp. pose proof Hm_pos as HmP. induction a as [|a IH]; intros fuel first t y I Ht Hf Hi; [exfalso; destruct I as (I & _); cbn [INR] in Ht; lra|].
    destruct fuel as [|fuel]; [lia|]. cbn [trace_blocks]. destruct (hmax_range t y I) as (Nz & Hx). unfold trace_particle. destruct (Req_EM_T (norm (s_vel y)) 0) as [Z|_]; [contradiction|].
    destruct (loop_ends block _ Hx inner (S a) 0%nat 1%nat t y _ I (conj (proj1 Hx) (Rle_refl _)) ltac:(lia) ltac:(rewrite pow_O; lra) ltac:(lra) ltac:(lia)) as (rest & E & Fr).
    rewrite E. cbn [bind]. cbv zeta. cbn [tl length].
    assert (Fi : Forall (fun s => inv (fst s) (snd s)) rest) by (eapply Forall_impl; [|exact Fr]; intros s [P _]; exact P).
    assert (Fk : Forall (fun s => inv (fst s) (snd s)) (if first then (t, y) :: rest else rest)) by (destruct first; [constructor; [exact I|exact Fi]|exact Fi]).
    destruct (S (length rest) =? block)%nat eqn:Eb; [|eexists; split; [reflexivity|exact Fk]]. apply Nat.eqb_eq in Eb.
    assert (Last : exists s, np_get (if first then (t, y) :: rest else rest) (length (if first then (t, y) :: rest else rest) - 1) = Ok s /\ In s rest).
    { destruct rest as [|r0 rest]; [cbn in Eb; lia|]. clear - field. assert (Q : forall l : list sample, exists s, np_get (r0 :: l) (length l) = Ok s /\ In s (r0 :: l)).
      { intros l. destruct (nth_error (r0 :: l) (length l)) as [s|] eqn:N; [|apply nth_error_None in N; cbn in N; lia]. exists s. split; [unfold np_get; rewrite N; reflexivity|eapply nth_error_In; exact N]. }
      destruct (Q rest) as (s & Es & Hs). exists s. split; [|exact Hs]. destruct first; cbn [length Nat.sub]; [|rewrite Nat.sub_0_r; exact Es]. unfold np_get in *. cbn [nth_error]. exact Es. }
    destruct Last as (s & Es & Hs). rewrite Es. cbn [bind]. rewrite Forall_forall in Fr. destruct (Fr s Hs) as (Is & Ts). rewrite S_INR in Ht.
    destruct (IH fuel false (fst s) (snd s) Is ltac:(lra) ltac:(lia) ltac:(lia)) as (more & Em & Fm). rewrite Em. cbn [bind]. eexists. split; [reflexivity|]. apply Forall_app. split; [exact Fk|exact Fm].
  Qed.
End Loop.
Section Ends.
  Variables (field : field_fun) (bounds : box) (x0 v0 n : vec3) (Fmax L atol : R).
  Hypothesis HF : 0 <= Fmax.
  Hypothesis HL : 0 <= L.
  Hypothesis Hn : norm n <= 1.
  Hypothesis Hw : 0 < dot n v0.
  Hypothesis Ha : 0 < atol.
  Hypothesis Small : (8 * L + 2) * (Rabs EM * Fmax) <= dot n v0 * dot n v0.
  Hypothesis Ext : extent bounds n x0 L.
  Hypothesis FB : force_bounded field bounds (0.64 * (norm v0 / dot n v0)) (2 * norm v0) Fmax.
  Theorem trace_ends : exists N, forall fuel inner block, (N <= fuel)%nat -> (N <= inner)%nat -> (2 <= block)%nat ->
    exists samples, trace_blocks fuel inner block field bounds atol true 0 (mkstate x0 v0) = Ok samples /\
      Forall (fun s => 0 <= fst s <= (4 * L + 0.02) / dot n v0 /\ dot n v0 / 2 <= dot n (s_vel (snd s)) /\ norm (s_vel (snd s)) <= 3 / 2 * norm v0) samples.
  Proof.
    set (w := dot n v0) in *. set (Hm := 0.02 / w). set (Tend := 4 * L / w). pose proof (hmin_pos v0 n Fmax atol HF Hn Hw Ha) as Hp. set (hm := hmin v0 n Fmax atol) in *.
    assert (HmP : 0 < Hm) by (apply Rdiv_lt_0_compat; lra).
    destruct (pow_lt_1_zero 0.9 ltac:(rewrite Rabs_pos_eq; lra) (hm / Hm) ltac:(apply Rdiv_lt_0_compat; assumption)) as (J & HJ). specialize (HJ J ltac:(lia)).
    assert (HJ' : Hm * 0.9 ^ J < hm). { rewrite Rabs_pos_eq in HJ by (apply pow_le; lra). apply (Rmult_lt_compat_l Hm) in HJ; [|exact HmP]. replace (Hm * (hm / Hm)) with hm in HJ by (field; lra). exact HJ. }
    destruct (archimed_cor1 (hm / (Tend + Hm + 1))) as (a & Ha1 & Ha2). { apply Rdiv_lt_0_compat; [exact Hp|]. assert (0 <= Tend) by (apply Rmult_le_pos; [lra|left; apply Rinv_0_lt_compat; exact Hw]). lra. }
    assert (TP : 0 <= Tend) by (apply Rmult_le_pos; [lra|left; apply Rinv_0_lt_compat; exact Hw]).
    assert (Haa : Tend + Hm < 0 + INR a * hm).
    { assert (Pa : 0 < INR a) by (apply lt_0_INR; exact Ha2). apply (Rmult_lt_compat_l (INR a * (Tend + Hm + 1))) in Ha1; [|apply Rmult_lt_0_compat; lra].
      replace (INR a * (Tend + Hm + 1) * / INR a) with (Tend + Hm + 1) in Ha1 by (field; lra). replace (INR a * (Tend + Hm + 1) * (hm / (Tend + Hm + 1))) with (INR a * hm) in Ha1 by (field; lra). lra. }
    exists (S (a * (J + 1) + J)). intros fuel inner block Hf Hi Hb.
    assert (I0 : inv x0 v0 n Fmax L 0 (mkstate x0 v0)).
    { unfold inv. fold w. fold Hm. fold Tend. split; [lra|]. cbn [s_vel s_pos]. split; [fold w; lra|]. split; [lra|]. unfold dot; cbn. right. ring. }
    destruct (blocks_end field bounds x0 v0 n Fmax L atol HF HL Hn Hw Ha Small Ext FB J HJ' block inner Hb a fuel true 0 _ I0 Haa ltac:(nia) ltac:(lia)) as (samples & E & F).
    exists samples. split; [exact E|]. eapply Forall_impl; [|exact F]. intros s Is. destruct (inv_speed x0 v0 n Fmax L HF Hn Hw Small _ _ Is) as (S1 & _ & S3). fold w in S1, S3.
    destruct Is as (It & _). fold w in It. split; [replace ((4 * L + 0.02) / w) with (4 * L / w + 0.02 / w) by (unfold Rdiv; ring); exact It|]. split; [exact S1|]. pose proof (w_V0 v0 n Hn). fold w in H. lra.
  Qed.
End Ends.
