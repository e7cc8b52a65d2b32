(** The local error of a step along a solution of the equation of motion. *)
From Coq Require Import Reals Lra Lia Psatz.
From Coquelicot Require Import Coquelicot.
From Verif Require Import Base BaseFacts Vec TracingModel TracingFacts ConvSpec ConvFacts ConvStep.
Local Open Scope R_scope.

Section Local.
  Variables (field : field_fun) (u : R -> state) (T rho M : R).
  Variables (D1 : R -> state -> state) (D2 : R -> state -> state -> state) (D3 : R -> state -> state -> state -> state) (D4 : R -> state -> state -> state -> state -> state).
  Hypothesis Sm : smooth_along field u T rho M D1 D2 D3 D4.
  Hypothesis Su : solves field T u.
  Notation f := (fv field).
  Definition f0 (t : R) : state := f (u t).
  Let HM : 0 < M. Proof. exact (proj2 (sm_radius _ _ _ _ _ _ _ _ _ Sm)). Qed.
  Let Hrho : 0 < rho. Proof. exact (proj1 (sm_radius _ _ _ _ _ _ _ _ _ Sm)). Qed.
  Definition ftube : R := M * (1 + rho + rho ^ 2 + rho ^ 3 + rho ^ 4 + rho ^ 5).
  Lemma ftube_pos : M <= ftube.
  Proof.
    unfold ftube. assert (0 <= rho ^ 2) by (apply pow_le; lra). assert (0 <= rho ^ 3) by (apply pow_le; lra). assert (0 <= rho ^ 4) by (apply pow_le; lra). assert (0 <= rho ^ 5) by (apply pow_le; lra). nra.
  Qed.
  Lemma taylor t d : 0 <= t <= T -> snorm d <= rho -> rate field (sadd (u t) d) (f (sadd (u t) d)) /\ snorm (f0 t) <= M /\
    snorm (ssub (f (sadd (u t) d)) (expansion (D1 t) (D2 t) (D3 t) (D4 t) (f0 t) d)) <= M * snorm d ^ 5.
  Proof.
    intros Ht Hd. destruct (sm_taylor _ _ _ _ _ _ _ _ _ Sm t d Ht Hd) as (g0 & g & H0 & Hg & B & E). unfold f0. rewrite (fv_rate _ _ _ H0), (fv_rate _ _ _ Hg). auto.
  Qed.
  Lemma f_bound t d : 0 <= t <= T -> snorm d <= rho -> snorm (f (sadd (u t) d)) <= ftube.
  Proof.
    intros Ht Hd. destruct (taylor t d Ht Hd) as (_ & B0 & E). destruct (sm_bound _ _ _ _ _ _ _ _ _ Sm t d d d d Ht) as (E1 & E2 & E3 & E4).
    eapply Rle_trans; [apply (snorm_le_sub _ (expansion (D1 t) (D2 t) (D3 t) (D4 t) (f0 t) d))|].
    assert (Q : snorm (expansion (D1 t) (D2 t) (D3 t) (D4 t) (f0 t) d) <= M + (M * snorm d + (/ 2 * (M * (snorm d * snorm d)) + (/ 6 * (M * (snorm d * (snorm d * snorm d))) + / 24 * (M * (snorm d * (snorm d * (snorm d * snorm d)))))))).
    { unfold expansion. eapply Rle_trans; [apply snorm_add|]. apply Rplus_le_compat; [exact B0|]. eapply Rle_trans; [apply snorm_add|]. apply Rplus_le_compat; [exact E1|].
      eapply Rle_trans; [apply snorm_add|]. apply Rplus_le_compat; [rewrite snorm_scale, Rabs_pos_eq by lra; lra|].
      eapply Rle_trans; [apply snorm_add|]. rewrite !snorm_scale, !Rabs_pos_eq by lra. lra. }
    pose proof (snorm_pos d) as P. set (x := snorm d) in *. clearbody x.
    assert (P2 : x ^ 2 <= rho ^ 2) by (apply pow_incr; lra). assert (P3 : x ^ 3 <= rho ^ 3) by (apply pow_incr; lra). assert (P4 : x ^ 4 <= rho ^ 4) by (apply pow_incr; lra). assert (P5 : x ^ 5 <= rho ^ 5) by (apply pow_incr; lra).
    assert (N2 : 0 <= x ^ 2) by (apply pow_le; lra). assert (N3 : 0 <= x ^ 3) by (apply pow_le; lra). assert (N4 : 0 <= x ^ 4) by (apply pow_le; lra).
    replace (x * (x * (x * x))) with (x ^ 4) in Q by ring. replace (x * (x * x)) with (x ^ 3) in Q by ring. replace (x * x) with (x ^ 2) in Q by ring.
    eapply Rle_trans; [apply Rplus_le_compat; [exact Q|exact E]|]. unfold ftube.
    replace (M + (M * x + (/ 2 * (M * x ^ 2) + (/ 6 * (M * x ^ 3) + / 24 * (M * x ^ 4)))) + M * x ^ 5) with (M * (1 + x + / 2 * x ^ 2 + / 6 * x ^ 3 + / 24 * x ^ 4 + x ^ 5)) by ring.
    apply Rmult_le_compat_l; [lra|]. lra.
  Qed.
  (** steps short enough to stay in the tube *)
  Variable h0 : R.
  Hypothesis Hh0 : 0 < h0 <= 1.
  Hypothesis Htube : 16 * (ftube * h0) <= rho.
  Definition dom (t h : R) : Prop := 0 <= t /\ 0 <= h <= h0 /\ t + h <= T.
  Let dom_h : forall t h, dom t h -> 0 <= h <= 1. Proof. intros t h (_ & A & _). lra. Qed.
  Let dom_t : forall t h, dom t h -> 0 <= t <= T. Proof. intros t h (A & B & C). lra. Qed.
  Let D_lin : forall t h, dom t h -> linear_map (D1 t) /\ bilinear (D2 t) /\ trilinear (D3 t) /\ quadrilinear (D4 t).
  Proof. intros t h D. exact (sm_linear _ _ _ _ _ _ _ _ _ Sm t (dom_t t h D)). Qed.
  Let D_bound : forall t h a b c d, dom t h -> snorm (D1 t a) <= M * snorm a /\ snorm (D2 t a b) <= M * (snorm a * snorm b) /\
    snorm (D3 t a b c) <= M * (snorm a * (snorm b * snorm c)) /\ snorm (D4 t a b c d) <= M * (snorm a * (snorm b * (snorm c * snorm d))).
  Proof. intros t h a b c d D. exact (sm_bound _ _ _ _ _ _ _ _ _ Sm t a b c d (dom_t t h D)). Qed.
  Let f0_bound : forall t h, dom t h -> snorm (f0 t) <= M.
  Proof. intros t h D. apply (taylor t szero (dom_t t h D)). rewrite snorm_zero. lra. Qed.
  Notation ev := (ev D1 D2 D3 D4 f0).
  Notation O := (bigO dom).
  Notation sm := (same dom).
  Definition Okey := key dom dom_h D1 D2 D3 D4 M HM D_lin D_bound f0 f0_bound.
  Definition Oterm := O_term dom dom_h D1 D2 D3 D4 M HM D_bound f0 f0_bound.
  Lemma ev17_8 c : sm 5 (ev 17 c) (ev 8 c).
  Proof.
    unfold same. apply (O_ext dom 5 (fun t h => sadd (sadd (sadd (sscale (c 8%nat * h ^ 5) (tr D1 D2 D3 D4 f0 t 8)) (sscale (c 9%nat * h ^ 5) (tr D1 D2 D3 D4 f0 t 9))) (sadd (sscale (c 10%nat * h ^ 5) (tr D1 D2 D3 D4 f0 t 10)) (sscale (c 11%nat * h ^ 5) (tr D1 D2 D3 D4 f0 t 11))))
      (sadd (sadd (sscale (c 12%nat * h ^ 5) (tr D1 D2 D3 D4 f0 t 12)) (sscale (c 13%nat * h ^ 5) (tr D1 D2 D3 D4 f0 t 13))) (sadd (sscale (c 14%nat * h ^ 5) (tr D1 D2 D3 D4 f0 t 14)) (sadd (sscale (c 15%nat * h ^ 5) (tr D1 D2 D3 D4 f0 t 15)) (sscale (c 16%nat * h ^ 5) (tr D1 D2 D3 D4 f0 t 16))))))).
    - intros t h _. change (ev 17 c t h) with (sadd (sadd (sadd (sadd (sadd (sadd (sadd (sadd (sadd (ev 8 c t h) (sscale (c 8%nat * h ^ 5) (tr D1 D2 D3 D4 f0 t 8))) (sscale (c 9%nat * h ^ 5) (tr D1 D2 D3 D4 f0 t 9))) (sscale (c 10%nat * h ^ 5) (tr D1 D2 D3 D4 f0 t 10))) (sscale (c 11%nat * h ^ 5) (tr D1 D2 D3 D4 f0 t 11)))
        (sscale (c 12%nat * h ^ 5) (tr D1 D2 D3 D4 f0 t 12))) (sscale (c 13%nat * h ^ 5) (tr D1 D2 D3 D4 f0 t 13))) (sscale (c 14%nat * h ^ 5) (tr D1 D2 D3 D4 f0 t 14))) (sscale (c 15%nat * h ^ 5) (tr D1 D2 D3 D4 f0 t 15))) (sscale (c 16%nat * h ^ 5) (tr D1 D2 D3 D4 f0 t 16))).
      generalize (ev 8 c t h). generalize (tr D1 D2 D3 D4 f0 t). generalize (h ^ 5). intros. unfold ssub. state_ring.
    - repeat (apply O_add); apply Oterm.
  Qed.
  Lemma O_ev n c : O 1 (ev n c).
  Proof.
    induction n as [|n IH]; cbn [ConvFacts.ev]; [apply O_zero|]. apply O_add; [exact IH|]. apply (O_le dom dom_h 1 (ord n)); [|apply Oterm].
    do 8 (destruct n as [|n]; [cbn; lia|]). cbn; lia.
  Qed.
  (** the families of stages *)
  Notation fam := (R -> R -> state).
  Definition at_ (t h : R) (ks : list fam) : list state := map (fun k => k t h) ks.
  Fixpoint kf (bs : list (list R)) (ks : list fam) : list fam :=
    match bs with [] => ks | b :: bs => kf bs (ks ++ [fun t h => sscale h (f (sadd (u t) (accumulate szero b (at_ t h ks))))]) end.
  Definition short (k : fam) : Prop := forall t h, dom t h -> snorm (k t h) <= ftube * h.
  Lemma at_short t h ks : dom t h -> Forall short ks -> Forall (fun k => snorm k <= ftube * h) (at_ t h ks).
  Proof. intros D H. unfold at_. apply Forall_map. eapply Forall_impl; [|exact H]. intros k Hk. apply Hk; exact D. Qed.
  Lemma in_tube b t h ks : labs b <= 16 -> dom t h -> Forall short ks -> snorm (accumulate szero b (at_ t h ks)) <= rho.
  Proof.
    intros Hb D H. pose proof ftube_pos. pose proof (dom_h t h D). destruct D as (D0 & D1' & D2'). assert (0 <= ftube * h) by nra.
    eapply Rle_trans; [apply (accumulate_bound (ftube * h)); [assumption|apply at_short; [repeat split; tauto|exact H]]|]. rewrite snorm_zero.
    assert (ftube * h <= ftube * h0) by (apply Rmult_le_compat_l; lra). pose proof (labs_pos b). nra.
  Qed.
  Lemma new_short b ks : labs b <= 16 -> Forall short ks -> short (fun t h => sscale h (f (sadd (u t) (accumulate szero b (at_ t h ks))))).
  Proof.
    intros Hb H t h D. pose proof (dom_h t h D). rewrite snorm_scale, Rabs_pos_eq by lra. rewrite Rmult_comm. apply Rmult_le_compat_r; [lra|]. apply f_bound; [exact (dom_t t h D)|]. apply in_tube; assumption.
  Qed.
  Lemma stages_fam t h : dom t h -> forall bs ks, Forall (fun b => labs b <= 16) bs -> Forall short ks -> stages field h (u t) bs (at_ t h ks) = Ok (at_ t h (kf bs ks)).
  Proof.
    intros D. induction bs as [|b bs IH]; intros ks Hb H; [reflexivity|]. inversion Hb as [|? ? Hb0 Hbs]; subst. cbn [stages kf].
    pose proof (in_tube b t h ks Hb0 D H) as Tu. destruct (taylor t _ (dom_t t h D) Tu) as ((F & HF & EF) & _).
    unfold produce_new_k. rewrite accumulate_zero, HF. cbn [bind].
    replace (at_ t h ks ++ [mkstate (vscale h (s_vel (sadd (u t) (accumulate szero b (at_ t h ks))))) (vscale (h * EM) F)]) with (at_ t h (ks ++ [fun t h => sscale h (f (sadd (u t) (accumulate szero b (at_ t h ks))))])).
    - apply IH; [exact Hbs|]. apply Forall_app. split; [exact H|]. constructor; [|constructor]. apply new_short; assumption.
    - unfold at_ at 1. rewrite map_app. cbn [map]. fold (at_ t h ks). f_equal. f_equal. rewrite EF. generalize (s_vel (sadd (u t) (accumulate szero b (at_ t h ks)))). intros v. unfold sscale. cbn [s_pos s_vel]. f_equal. apply vec_eq; cbn -[EM]; ring.
  Qed.
  Definition stage_like (k : fam) (c : nat -> R) : Prop := sm 6 k (ev 17 c).
  Lemma comb_like b : forall ks cs, Forall2 stage_like ks cs -> sm 6 (fun t h => accumulate szero b (at_ t h ks)) (ev 17 (ccomb b cs)).
  Proof.
    assert (Q : forall b ks cs, Forall2 stage_like ks cs -> sm 6 (fun t h => accumulate szero b (at_ t h ks)) (ev 17 (ccomb b cs))); [|exact (Q b)].
    clear b. induction b as [|x b IH]; intros ks cs H.
    - apply (O_ext dom 6 (fun _ _ => szero)); [intros t h _|apply O_zero]. change (ccomb [] cs) with (fun _ : nat => 0). rewrite ev_zero. rewrite ssub_self. reflexivity.
    - inversion H as [|k c ks' cs' Hk Hks]; subst.
      + apply (O_ext dom 6 (fun _ _ => szero)); [intros t h _|apply O_zero]. change (ccomb (x :: b) []) with (fun _ : nat => 0). rewrite ev_zero. rewrite ssub_self. reflexivity.
      + pose proof (same_add dom 6 _ _ _ _ (same_scale dom 6 x _ _ Hk) (IH _ _ Hks)) as S. cbv beta in S.
        eapply O_ext; [|exact S]. intros t h _. cbv beta. f_equal.
        * unfold at_. cbn [map]. unfold accumulate at 2. cbn [combine fold_left fst snd]. fold (accumulate (sadd szero (sscale x (k t h))) b (at_ t h ks')). rewrite sadd_zero_l. symmetry. apply accumulate_zero.
        * rewrite <- ev_scale, <- ev_add. reflexivity.
  Qed.
  Lemma stage_expansion : forall bs ks cs, Forall (fun b => labs b <= 16) bs -> Forall short ks -> Forall2 stage_like ks cs -> Forall short (kf bs ks) /\ Forall2 stage_like (kf bs ks) (kc bs cs).
  Proof.
    induction bs as [|b bs IH]; intros ks cs Hb H E; [split; assumption|]. inversion Hb as [|? ? Hb0 Hbs]; subst. cbn [kf kc]. pose proof (new_short b ks Hb0 H) as Sn.
    apply IH; [exact Hbs|apply Forall_app; split; [exact H|constructor; [exact Sn|constructor]]|]. apply Forall2_app; [exact E|]. constructor; [|constructor].
    set (d := fun t h => accumulate szero b (at_ t h ks)). unfold stage_like.
    assert (Sd : sm 5 d (ev 8 (ccomb b cs))).
    { apply (same_trans dom 5 _ (ev 17 (ccomb b cs))); [|apply ev17_8]. apply (O_le dom dom_h 5 6); [lia|]. apply comb_like. exact E. }
    apply (Okey (ccomb b cs) d (fun t h => f (sadd (u t) (d t h))) Sd).
    assert (Od : O 1 d) by (apply (same_O dom 1 d (ev 8 (ccomb b cs))); [apply (O_le dom dom_h 1 5); [lia|exact Sd]|apply O_ev]).
    destruct Od as (C & HC & Hd). exists (M * C ^ 5). assert (0 <= C ^ 5) by (apply pow_le; exact HC). split; [nra|]. intros t h D.
    destruct (taylor t (d t h) (dom_t t h D) (in_tube b t h ks Hb0 D H)) as (_ & _ & E5). eapply Rle_trans; [exact E5|]. rewrite Rmult_assoc. apply Rmult_le_compat_l; [lra|].
    specialize (Hd t h D). pose proof (snorm_pos (d t h)). replace (C ^ 5 * h ^ 5) with ((C * h ^ 1) ^ 5) by ring. apply pow_incr. lra.
  Qed.
  (** ** The exact solution *)
  Notation tr := (tr D1 D2 D3 D4 f0).
  Fixpoint evd (n : nat) (c : nat -> R) (t s : R) : state :=
    match n with 0%nat => szero | S n => sadd (evd n c t s) (sscale (c n * (INR (ord n) * s ^ pred (ord n))) (tr t n)) end.
  Lemma ev_derivative n c t s : has_derivative (fun s => ev n c t s) s (evd n c t s).
  Proof.
    induction n as [|n IH]; cbn [ConvFacts.ev evd]; [apply has_derivative_const|]. apply has_derivative_add; [exact IH|].
    apply (has_derivative_scaled (fun s => c n * s ^ ord n)). apply is_derive_scal. apply is_derive_Reals. apply derivable_pt_lim_pow.
  Qed.
  Lemma ev_derivative_h n t s : sscale s (evd n exact t s) = ev n (G exact) t s.
  Proof.
    induction n as [|n IH]; cbn [ConvFacts.ev evd]; [state_ring|]. rewrite sscale_add, IH, sscale_mul. f_equal. f_equal. rewrite <- exact_G.
    assert (E : s ^ ord n = s * s ^ pred (ord n)). { assert (1 <= ord n)%nat by (do 8 (destruct n as [|n]; [cbn; lia|]); cbn; lia). destruct (ord n); [lia|reflexivity]. }
    rewrite E. ring.
  Qed.
  Lemma ev_at_zero n c t : ev n c t 0 = szero.
  Proof.
    induction n as [|n IH]; cbn [ConvFacts.ev]; [reflexivity|]. rewrite IH. assert (1 <= ord n)%nat by (do 8 (destruct n as [|n]; [cbn; lia|]); cbn; lia).
    replace (0 ^ ord n) with 0 by (destruct (ord n); [lia|cbn; ring]). rewrite Rmult_0_r, sscale_zero, sadd_zero_r. reflexivity.
  Qed.
  Hypothesis HP : forall t h, dom t h -> snorm (ev 17 exact t h) <= rho.
  Lemma f0_derivative t : 0 <= t <= T -> has_derivative u t (f0 t).
  Proof. intros Ht. destruct (Su t Ht) as (g & Hg & Hd). unfold f0. rewrite (fv_rate _ _ _ Hg). exact Hd. Qed.
  Lemma dom_le t h s : dom t h -> 0 <= s <= h -> dom t s.
  Proof. intros (A & B & C) Hs. repeat split; lra. Qed.
  Lemma moved t h : dom t h -> snorm (ssub (u (t + h)) (u t)) <= 6 * M * h.
  Proof.
    intros D. pose proof (dom_h t h D) as Hh. apply (mvt_state (fun s => ssub (u (t + s)) (u t)) (fun s => f0 (t + s)) h M).
    - lra.
    - rewrite Rplus_0_r. apply ssub_self.
    - intros s Hs. destruct D as (D0 & D1' & D2'). unfold ssub. rewrite <- (sadd_zero_r (f0 (t + s))). apply has_derivative_add; [|apply has_derivative_const].
      apply has_derivative_shift. apply f0_derivative. lra.
    - intros s Hs. destruct D as (D0 & D1' & D2'). apply (f0_bound (t + s) 0). repeat split; lra.
  Qed.
  Definition wd (t h : R) : state := ssub (ssub (u (t + h)) (u t)) (ev 17 exact t h).
  Lemma moved_tube t h : dom t h -> snorm (ssub (u (t + h)) (u t)) <= rho.
  Proof.
    intros D. eapply Rle_trans; [apply moved; exact D|]. destruct D as (_ & Hh & _). pose proof ftube_pos. eapply Rle_trans; [|exact Htube]. assert (M * h <= ftube * h0) by (apply Rmult_le_compat; lra). assert (0 <= M * h) by nra. lra.
  Qed.
  Lemma exact_rate : exists C, 0 <= C /\ forall t s, dom t s -> 0 < s -> snorm (ssub (f (sadd (u t) (ev 17 exact t s))) (evd 17 exact t s)) <= C * s ^ 5.
  Proof.
    assert (K : sm 6 (fun t h => sscale h (f (sadd (u t) (ev 17 exact t h)))) (ev 17 (G exact))).
    { apply (Okey exact (ev 17 exact)); [apply ev17_8|]. destruct (O_ev 17 exact) as (C & HC & Hd). exists (M * C ^ 5). assert (0 <= C ^ 5) by (apply pow_le; exact HC). split; [nra|]. intros t h D.
      destruct (taylor t (ev 17 exact t h) (dom_t t h D) (HP t h D)) as (_ & _ & E5). eapply Rle_trans; [exact E5|]. rewrite Rmult_assoc. apply Rmult_le_compat_l; [lra|].
      specialize (Hd t h D). pose proof (snorm_pos (ev 17 exact t h)). replace (C ^ 5 * h ^ 5) with ((C * h ^ 1) ^ 5) by ring. apply pow_incr. lra. }
    destruct K as (C & HC & K). exists C. split; [exact HC|]. intros t s D Hs. specialize (K t s D). cbv beta in K. rewrite <- ev_derivative_h in K.
    replace (ssub (sscale s (f (sadd (u t) (ev 17 exact t s)))) (sscale s (evd 17 exact t s))) with (sscale s (ssub (f (sadd (u t) (ev 17 exact t s))) (evd 17 exact t s))) in K
      by (unfold ssub; generalize (f (sadd (u t) (ev 17 exact t s))) (evd 17 exact t s); intros; state_ring).
    rewrite snorm_scale, Rabs_pos_eq in K by lra. apply (Rmult_le_reg_l s); [exact Hs|]. replace (s * (C * s ^ 5)) with (C * s ^ 6) by ring. exact K.
  Qed.
  Lemma boot n : (n <= 5)%nat -> O n wd -> O (S n) wd.
  Proof.
    intros Hn (A & HA & Hw). destruct exact_rate as (C & HC & Hr). exists (6 * (M * A + C)). split; [assert (0 <= M * A) by nra; lra|]. intros t h D. pose proof (dom_h t h D) as Hh.
    replace (6 * (M * A + C) * h ^ S n) with (6 * ((M * A + C) * h ^ n) * h) by (cbn [pow]; ring).
    apply (mvt_state (fun s => wd t s) (fun s => ssub (f0 (t + s)) (evd 17 exact t s)) h ((M * A + C) * h ^ n)).
    - lra.
    - unfold wd. rewrite Rplus_0_r, ev_at_zero, ssub_self. apply ssub_self.
    - intros s Hs. assert (Ds : 0 <= t + s <= T) by (destruct D as (D0 & D1' & D2'); lra). unfold wd, ssub at 1. unfold ssub at 2. apply has_derivative_add.
      + unfold ssub. rewrite <- (sadd_zero_r (f0 (t + s))). apply has_derivative_add; [apply has_derivative_shift; apply f0_derivative; exact Ds|]. apply has_derivative_const.
      + apply has_derivative_scale. apply ev_derivative.
    - intros s Hs. pose proof (dom_le t h s D ltac:(lra)) as Ds. pose proof (dom_h t s Ds) as Hs1.
      eapply Rle_trans; [apply (ssub_triangle _ (f (sadd (u t) (ev 17 exact t s))))|].
      assert (L : snorm (ssub (f0 (t + s)) (f (sadd (u t) (ev 17 exact t s)))) <= M * snorm (wd t s)).
      { unfold f0, wd. rewrite <- (ssub_add (u (t + s)) (u t)) at 1. pose proof (moved_tube t s Ds) as T1. pose proof (HP t s Ds) as T2.
        apply (sm_lipschitz _ _ _ _ _ _ _ _ _ Sm t _ _ _ _ (dom_t t s Ds) T1 T2); apply taylor; auto; exact (dom_t t s Ds). }
      specialize (Hw t s Ds). specialize (Hr t s Ds (proj1 Hs)).
      assert (P1 : s ^ n <= h ^ n) by (apply pow_incr; lra). assert (P2 : s ^ 5 <= s ^ n) by (apply pow_mono; [lra|lia]). assert (P0 : 0 <= s ^ n) by (apply pow_le; lra).
      assert (M * snorm (wd t s) <= M * (A * h ^ n)) by (apply Rmult_le_compat_l; [lra|]; nra). assert (C * s ^ 5 <= C * h ^ n) by (apply Rmult_le_compat_l; lra). nra.
  Qed.
  Lemma solution_expansion : O 6 wd.
  Proof.
    assert (S : O 1 wd).
    { unfold wd. apply (O_sub dom 1 (fun t h => ssub (u (t + h)) (u t)) (ev 17 exact)); [|apply O_ev]. exists (6 * M). split; [lra|]. intros t h D. rewrite pow_1. apply moved. exact D. }
    do 5 (apply boot; [lia|]). exact S.
  Qed.
  Definition the_stages (t h : R) : list state := at_ t h (kf [[]; B2; B3; B4; B5; B6] []).
  Lemma ev_congr n c c' t h : (forall i, (i < n)%nat -> c i = c' i) -> ev n c t h = ev n c' t h.
  Proof. intros H. induction n as [|n IH]; cbn [ConvFacts.ev]; [reflexivity|]. rewrite IH, (H n) by (intros; try apply H; lia). reflexivity. Qed.
  Theorem local_error : exists C, 0 <= C /\ forall t h, dom t h -> exists ks, rk_stages field h (u t) = Ok ks /\
    snorm (ssub (step_state (u t) ks) (u (t + h))) <= C * h ^ 6 /\ snorm (accumulate szero CT ks) <= C * h ^ 5.
  Proof.
    destruct rows_abs as (R1 & _ & _).
    destruct (stage_expansion [[]; B2; B3; B4; B5; B6] [] [] R1 (Forall_nil _) (Forall2_nil _)) as (Sh & Ex).
    pose proof (comb_like CH _ _ Ex) as (C1 & HC1 & E1). pose proof (comb_like CT _ _ Ex) as ECT. destruct solution_expansion as (C2 & HC2 & E2).
    assert (OT : O 5 (fun t h => accumulate szero CT (the_stages t h))).
    { apply (same_O dom 5 _ (ev 8 (ccomb CT (kc [[]; B2; B3; B4; B5; B6] [])))).
      - apply (same_trans dom 5 _ (ev 17 (ccomb CT (kc [[]; B2; B3; B4; B5; B6] [])))); [|apply ev17_8]. apply (O_le dom dom_h 5 6); [lia|]. exact ECT.
      - apply (O_ext dom 5 (fun _ _ => szero)); [|apply O_zero]. intros t h _. rewrite (ev_congr 8 _ (fun _ => 0)); [symmetry; apply ev_zero|]. apply CT_coefficients. }
    destruct OT as (C3 & HC3 & E3). exists (C1 + C2 + C3). split; [lra|]. intros t h D. exists (the_stages t h). pose proof (dom_h t h D) as Hh. assert (P6 : 0 <= h ^ 6) by (apply pow_le; lra). assert (P5 : 0 <= h ^ 5) by (apply pow_le; lra).
    split; [exact (stages_fam t h D _ [] R1 (Forall_nil _))|]. split.
    - specialize (E1 t h D). specialize (E2 t h D). cbv beta in E1. rewrite (ev_congr 17 _ exact) in E1 by exact CH_coefficients.
      unfold step_state. rewrite accumulate_zero. fold (the_stages t h) in E1. unfold wd in E2.
      replace (ssub (sadd (u t) (accumulate szero CH (the_stages t h))) (u (t + h))) with (ssub (ssub (accumulate szero CH (the_stages t h)) (ev 17 exact t h)) (ssub (ssub (u (t + h)) (u t)) (ev 17 exact t h)))
        by (generalize (accumulate szero CH (the_stages t h)) (ev 17 exact t h) (u t) (u (t + h)); intros; unfold ssub; state_ring).
      eapply Rle_trans; [apply snorm_sub|]. nra.
    - specialize (E3 t h D). cbv beta in E3. nra.
  Qed.
End Local.
