(** Property theorems about the three-dimensional series around the axis: C69. *)
From Coq Require Import Reals ZArith Lra Lia.
From Coquelicot Require Import Coquelicot.
From Verif Require Import Base BaseFacts Vec GeomModel PathModel OutwardFacts FieldModel SeriesModel SeriesFacts InterpFacts Field3DFacts Axial3DModel Axial3DFacts.
Local Open Scope R_scope.

(** ** C69 The series evaluated off the axis *)
(** Samples z0, z0 + h, ..., N of them; one row of coefficients per interval. *)
Theorem C69_outside z0 h N coeff p : (2 <= N)%nat -> vz p < z0 \/ z0 + INR (N - 1) * h < vz p ->
  potential_3d_derivs p (samples z0 h N) coeff = Ok 0 /\ field_3d_derivs p (samples z0 h N) coeff = Ok vzero.
Proof. intros HN H. unfold potential_3d_derivs, field_3d_derivs. rewrite row3d_outside by assumption. split; reflexivity. Qed.
Print Assumptions C69_outside.

(** On the axis, or at least 1e-10 away from it (nearer than that the code uses the field of the axis). *)
Definition on_or_off_axis (p : vec3) : Prop := (vx p = 0 /\ vy p = 0) \/ 1e-10 <= norm_2d (vx p) (vy p).
Lemma potential_row z0 h N coeff : 0 < h -> (2 <= N)%nat -> length coeff = (N - 1)%nat -> forall p j, (S j < N)%nat -> z0 + INR j * h <= vz p < z0 + (INR j + 1) * h ->
  exists row, nth_error coeff j = Some row /\ potential_3d_derivs p (samples z0 h N) coeff = Ok (row_potential row (z0 + INR j * h) p) /\
    (on_or_off_axis p -> field_3d_derivs p (samples z0 h N) coeff = Ok (row_field row (z0 + INR j * h) p)).
Proof.
  intros Hh HN Hl p j Hj Hc. destruct (row3d_inside z0 h N coeff (vz p) j Hh Hj Hc Hl) as (row & Hr & E). exists row. split; [exact Hr|].
  unfold potential_3d_derivs, field_3d_derivs. rewrite E. cbn [bind]. split.
  - f_equal. unfold row_potential. apply sum_nu_m_ext. intros nu m. exact (potential3d_term_poly _ _ (vx p) (vy p) nu m).
  - intros [[X Y]|Hr0].
    { destruct p as [x y z]. cbn [vx vy vz] in *. subst x y. rewrite (proj2 (row_axis _ _ _)). destruct (Rlt_dec _ _) as [L|L]; [reflexivity|]. exfalso. apply L.
      unfold norm_2d, MIN_DISTANCE_AXIS. replace (0 * 0 + 0 * 0) with 0 by ring. rewrite sqrt_0. lra. }
    destruct (Rlt_dec _ _) as [L|L]; [unfold MIN_DISTANCE_AXIS in L; lra|]. f_equal. unfold row_field. f_equal; f_equal; apply sum_nu_m_ext; intros nu m.
    + apply (field3d_term_slope (fun nu m => cubic_at (row false nu m) (vz p - (z0 + INR j * h))) (fun nu m => cubic_at (row true nu m) (vz p - (z0 + INR j * h))) (vx p) (vy p) nu m). lra.
    + apply (field3d_term_slope (fun nu m => cubic_at (row false nu m) (vz p - (z0 + INR j * h))) (fun nu m => cubic_at (row true nu m) (vz p - (z0 + INR j * h))) (vx p) (vy p) nu m). lra.
    + exact (potential3d_term_poly _ _ (vx p) (vy p) nu m).
Qed.

(** Inside the range and away from the last sample the potential has a value; at every point strictly between
    two samples, on the axis or at least 1e-10 from it, the field is minus its gradient; at the samples too its
    x and y components are minus the derivatives of the potential. *)
Theorem C69_gradient z0 h N coeff : 0 < h -> (2 <= N)%nat -> length coeff = (N - 1)%nat ->
  exists phi : vec3 -> R,
    (forall p, z0 <= vz p < z0 + INR (N - 1) * h -> potential_3d_derivs p (samples z0 h N) coeff = Ok (phi p)) /\
    (forall p j, (S j < N)%nat -> z0 + INR j * h < vz p < z0 + INR (S j) * h -> on_or_off_axis p ->
       exists E, field_3d_derivs p (samples z0 h N) coeff = Ok E /\ gradient phi p (vneg E)) /\
    (forall p, z0 <= vz p < z0 + INR (N - 1) * h -> on_or_off_axis p ->
       exists E, field_3d_derivs p (samples z0 h N) coeff = Ok E /\
         is_derive (fun t => phi (V3 t (vy p) (vz p))) (vx p) (- vx E) /\ is_derive (fun t => phi (V3 (vx p) t (vz p))) (vy p) (- vy E)).
Proof.
  intros Hh HN Hl. exists (fun p => match potential_3d_derivs p (samples z0 h N) coeff with Ok v => v | Err _ => 0 end).
  split; [|split].
  - intros p Hp. destruct (cell_exists z0 h N (vz p) Hh HN Hp) as (j & Hj & Hc).
    destruct (potential_row z0 h N coeff Hh HN Hl p j Hj Hc) as (row & _ & E & _). rewrite E. reflexivity.
  - intros p j Hj Hp Hr. rewrite S_INR in Hp. assert (Hc : z0 + INR j * h <= vz p < z0 + (INR j + 1) * h) by lra.
    destruct (potential_row z0 h N coeff Hh HN Hl p j Hj Hc) as (row & Hrow & _ & EF). exists (row_field row (z0 + INR j * h) p). split; [exact (EF Hr)|].
    intros d. eapply is_derive_ext_loc; [|apply row_gradient].
    set (L := Rmin (vz p - (z0 + INR j * h)) (z0 + (INR j + 1) * h - vz p)).
    assert (HL : 0 < L) by (apply Rmin_glb_lt; lra). assert (HL1 : L <= vz p - (z0 + INR j * h)) by apply Rmin_l. assert (HL2 : L <= z0 + (INR j + 1) * h - vz p) by apply Rmin_r.
    assert (He : 0 < L / (1 + Rabs (vz d))) by (apply Rdiv_lt_0_compat; [exact HL|pose proof (Rabs_pos (vz d)); lra]).
    exists (mkposreal _ He). intros t Ht. change (Rabs (t - 0) < L / (1 + Rabs (vz d))) in Ht. rewrite Rminus_0_r in Ht.
    assert (B : Rabs (t * vz d) < L).
    { rewrite Rabs_mult. pose proof (Rabs_pos (vz d)) as P. pose proof (Rabs_pos t) as Q.
      apply (Rmult_lt_compat_r (1 + Rabs (vz d))) in Ht; [|lra]. replace (L / (1 + Rabs (vz d)) * (1 + Rabs (vz d))) with L in Ht by (field; lra). nra. }
    apply Rabs_def2 in B.
    destruct (potential_row z0 h N coeff Hh HN Hl (vadd p (vscale t d)) j Hj) as (row' & Hrow' & E' & _); [cbn; lra|].
    rewrite Hrow in Hrow'. injection Hrow' as <-. rewrite E'. reflexivity.
  - intros p Hp Hr. destruct (cell_exists z0 h N (vz p) Hh HN Hp) as (j & Hj & Hc).
    destruct (potential_row z0 h N coeff Hh HN Hl p j Hj Hc) as (row & Hrow & _ & EF). exists (row_field row (z0 + INR j * h) p). split; [exact (EF Hr)|].
    assert (G : forall q, vz q = vz p -> match potential_3d_derivs q (samples z0 h N) coeff with Ok v => v | Err _ => 0 end = row_potential row (z0 + INR j * h) q).
    { intros q Hq. destruct (potential_row z0 h N coeff Hh HN Hl q j Hj) as (row' & Hrow' & E' & _); [rewrite Hq; exact Hc|]. rewrite Hrow in Hrow'. injection Hrow' as <-. rewrite E'. reflexivity. }
    set (F := row_field row (z0 + INR j * h) p). pose proof (row_gradient row (z0 + INR j * h) p) as RG. fold F in RG.
    assert (S1 : forall x0 : R, forall f : R -> R, forall l, is_derive (fun t => f (x0 + t)) 0 l -> is_derive f x0 l).
    { intros x0 f l H. apply (is_derive_ext (fun t => (fun u => f (x0 + u)) (t - x0))); [intros t; f_equal; ring|].
      eapply is_derive_eq; [apply (is_derive_comp (fun u => f (x0 + u)) (fun t => t - x0) x0)|].
      - replace (x0 - x0) with 0 by ring. exact H.
      - instantiate (1 := 1). auto_derive; [exact I|ring].
      - unfold scal, mult. cbn. unfold mult. cbn. ring. }
    split.
    + apply S1. eapply is_derive_ext; [intros t; symmetry; apply G; reflexivity|]. eapply is_derive_ext; [|eapply is_derive_eq; [exact (RG (V3 1 0 0))|unfold dot, vneg; cbn; ring]].
      intros t. cbn beta. f_equal. destruct p as [x y z]. unfold vadd, vscale. cbn. f_equal; ring.
    + apply S1. eapply is_derive_ext; [intros t; symmetry; apply G; reflexivity|]. eapply is_derive_ext; [|eapply is_derive_eq; [exact (RG (V3 0 1 0))|unfold dot, vneg; cbn; ring]].
      intros t. cbn beta. f_equal. destruct p as [x y z]. unfold vadd, vscale. cbn. f_equal; ring.
Qed.
Print Assumptions C69_gradient.

(** On the axis the series is the interpolated coefficient of order zero and its derivatives. *)
Theorem C69_axis z0 h N coeff z : 0 < h -> (2 <= N)%nat -> length coeff = (N - 1)%nat -> z0 <= z < z0 + INR (N - 1) * h ->
  exists j row, (S j < N)%nat /\ z0 + INR j * h <= z < z0 + INR (S j) * h /\ nth_error coeff j = Some row /\
    let P sine nu m := cubic_at (row sine nu m) in let d := z - (z0 + INR j * h) in
    potential_3d_derivs (V3 0 0 z) (samples z0 h N) coeff = Ok (P false 0%nat 0%nat d) /\
    exists dP, is_derive (P false 0%nat 0%nat) d dP /\
      field_3d_derivs (V3 0 0 z) (samples z0 h N) coeff = Ok (V3 (- P false 0%nat 1%nat d) (- P true 0%nat 1%nat d) (- dP)).
Proof.
  intros Hh HN Hl Hz. destruct (cell_exists z0 h N z Hh HN Hz) as (j & Hj & Hc).
  destruct (potential_row z0 h N coeff Hh HN Hl (V3 0 0 z) j Hj Hc) as (row & Hrow & E1 & E2). exists j, row. split; [exact Hj|]. split; [rewrite S_INR; exact Hc|]. split; [exact Hrow|]. cbv zeta.
  destruct (row_axis row (z0 + INR j * h) z) as [R1 R2]. rewrite R1 in E1. split; [exact E1|]. exists (cubic_diff (row false 0%nat 0%nat) (z - (z0 + INR j * h))). split; [apply cubic_derive|].
  rewrite <- R2. apply E2. left. split; reflexivity.
Qed.
Print Assumptions C69_axis.
(** A rotation about the axis by t multiplies the coefficients of order m by e^(i m t): the potential at the
    rotated point is the potential of the rotated coefficients. *)
Definition turned_by (t : R) (row row' : coeff3d_row) : Prop := forall nu m d,
  cubic_at (row' false nu m) d = cos (INR m * t) * cubic_at (row false nu m) d + sin (INR m * t) * cubic_at (row true nu m) d /\
  cubic_at (row' true nu m) d = cos (INR m * t) * cubic_at (row true nu m) d - sin (INR m * t) * cubic_at (row false nu m) d.
Theorem C69_rotation z0 h N coeff coeff' t x y z : 0 < h -> (2 <= N)%nat -> length coeff = (N - 1)%nat -> Forall2 (turned_by t) coeff coeff' ->
  z0 <= z < z0 + INR (N - 1) * h ->
  potential_3d_derivs (V3 (cos t * x - sin t * y) (sin t * x + cos t * y) z) (samples z0 h N) coeff = potential_3d_derivs (V3 x y z) (samples z0 h N) coeff'.
Proof.
  intros Hh HN Hl HF Hz. assert (Hl' : length coeff' = (N - 1)%nat) by (apply Forall2_length in HF; lia). destruct (cell_exists z0 h N z Hh HN Hz) as (j & Hj & Hc).
  destruct (potential_row z0 h N coeff Hh HN Hl (V3 (cos t * x - sin t * y) (sin t * x + cos t * y) z) j Hj Hc) as (row & Hrow & E1 & _).
  destruct (potential_row z0 h N coeff' Hh HN Hl' (V3 x y z) j Hj Hc) as (row' & Hrow' & E1' & _).
  rewrite E1, E1'. f_equal. unfold row_potential. cbn [vx vy vz].
  assert (HT : turned_by t row row').
  { clear - HF Hrow Hrow'. revert j Hrow Hrow'. induction HF as [|a b l l' H HF IH]; intros [|j] H1 H2; try discriminate; cbn in H1, H2; [injection H1 as <-; injection H2 as <-; exact H|exact (IH j H1 H2)]. }
  apply sum_nu_m_ext. intros nu m. destruct (HT nu m (z - (z0 + INR j * h))) as [H1 H2]. unfold poly_term. rewrite H1, H2.
  replace ((cos t * x - sin t * y) ^ 2 + (sin t * x + cos t * y) ^ 2) with (x ^ 2 + y ^ 2).
  2: { pose proof (sin2_cos2 t) as T. unfold Rsqr in T. transitivity ((sin t * sin t + cos t * cos t) * (x ^ 2 + y ^ 2)); [rewrite T; ring|ring]. }
  rewrite (proj1 (harmonic_turn m t x y)), (proj2 (harmonic_turn m t x y)). ring.
Qed.
Print Assumptions C69_rotation.
Example C69_nonvacuous : exists coeff E, length coeff = 2%nat /\ on_or_off_axis (V3 1 2 0.5) /\ field_3d_derivs (V3 1 2 0.5) (samples 0 1 3) coeff = Ok E /\ vx E = -1.
Proof.
  set (row := fun (sine : bool) (nu m : nat) => if (negb sine && (nu =? 0) && (m =? 1))%nat then (0, 0, 0, 1) else (0, 0, 0, 0)).
  exists [row; row]. destruct (potential_row 0 1 3 [row; row] ltac:(lra) ltac:(lia) eq_refl (V3 1 2 0.5) 0%nat ltac:(lia)) as (row' & Hr & _ & EF); [cbn; lra|].
  injection Hr as <-. eexists. split; [reflexivity|].
  assert (O : on_or_off_axis (V3 1 2 0.5)).
  { right. unfold norm_2d. cbn [vx vy]. rewrite <- (sqrt_Rsqr 1e-10) by lra. apply sqrt_le_1_alt. unfold Rsqr. lra. }
  split; [exact O|]. split; [apply EF; exact O|]. unfold row_field. cbn [vx]. f_equal.
  rewrite (sum_nu_m_ext _ (fun nu m => if ((nu =? 0) && (m =? 1))%nat then 1 else 0)).
  - rewrite (sum_nu_m_pick (fun _ _ => 1) 1); [reflexivity|unfold M_MAX; lia].
  - intros nu m. unfold row, term_slope. cbn [negb andb]. destruct (nu =? 0)%nat eqn:A; [|cbn; ring]. destruct (m =? 1)%nat eqn:B; [|cbn; ring].
    apply Nat.eqb_eq in A, B. subst. unfold hc, hs. cbn. ring.
Qed.

(** ** C44 for three-dimensional fields *)
Theorem C44_rows_exist_3d_partial z0 h N coeff p : 0 < h -> (2 <= N)%nat -> length coeff = (N - 1)%nat -> vz p <> z0 + INR (N - 1) * h ->
  (exists v, potential_3d_derivs p (samples z0 h N) coeff = Ok v) /\ (exists E, field_3d_derivs p (samples z0 h N) coeff = Ok E).
Proof.
  intros Hh HN Hl Hz. unfold potential_3d_derivs, field_3d_derivs.
  destruct (Rlt_le_dec (vz p) z0) as [L|L]; [rewrite row3d_outside by (assumption || lra); cbn; eauto|].
  destruct (Rlt_le_dec (z0 + INR (N - 1) * h) (vz p)) as [L2|L2]; [rewrite row3d_outside by (assumption || lra); cbn; eauto|].
  destruct (cell_exists z0 h N (vz p) Hh HN) as (j & Hj & Hc); [lra|].
  destruct (row3d_inside z0 h N coeff (vz p) j Hh Hj Hc Hl) as (row & _ & E). rewrite E. cbn. eauto.
Qed.
Print Assumptions C44_rows_exist_3d_partial.
Theorem C44_last_sample_3d_refuted z0 h N coeff x y : 0 < h -> (2 <= N)%nat -> length coeff = (N - 1)%nat ->
  potential_3d_derivs (V3 x y (z0 + INR (N - 1) * h)) (samples z0 h N) coeff = Err IndexError /\
  field_3d_derivs (V3 x y (z0 + INR (N - 1) * h)) (samples z0 h N) coeff = Err IndexError.
Proof.
  intros Hh HN Hl. unfold potential_3d_derivs, field_3d_derivs. cbn [vz]. rewrite row3d_last by assumption. split; reflexivity.
Qed.
Print Assumptions C44_last_sample_3d_refuted.
