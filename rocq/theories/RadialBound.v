(** Bounds on the fields of charged rings and coils, at a distance from them. *)
From Coq Require Import Reals Lra Lia Psatz.
From Coquelicot Require Import Coquelicot.
From Verif Require Import Base BaseFacts Vec GeomModel OutwardFacts FieldModel FieldFacts TracingModel TracingFacts AxialErrorFacts SeriesFacts BemSmooth RadialSmooth.
Local Open Scope R_scope.

(** The point is at least [delta] away from all rings, whose radii are not negative. *)
Definition clear_of_rings (delta : R) (c : charges) (p : vec3) : Prop :=
  forall x jp, In x (q_items c) -> In jp (snd x) -> 0 <= vx (snd jp) /\ delta <= norm_2d (vx (snd jp) - norm_2d (vx p) (vy p)) (vz (snd jp) - vz p).

Lemma abs_mul a b A B : Rabs a <= A -> Rabs b <= B -> Rabs (a * b) <= A * B.
Proof. intros. rewrite Rabs_mult. apply Rmult_le_compat; try apply Rabs_pos; assumption. Qed.
Lemma abs_add a b A B : Rabs a <= A -> Rabs b <= B -> Rabs (a + b) <= A + B.
Proof. intros. eapply Rle_trans; [apply Rabs_triang|]. lra. Qed.
Lemma abs_sub a b A B : Rabs a <= A -> Rabs b <= B -> Rabs (a - b) <= A + B.
Proof. intros. unfold Rminus. apply abs_add; [assumption|]. rewrite Rabs_Ropp. assumption. Qed.
Lemma abs_opp a A : Rabs a <= A -> Rabs (- a) <= A.
Proof. intros. rewrite Rabs_Ropp. assumption. Qed.
Lemma abs_inv x c : 0 < c <= x -> Rabs (/ x) <= / c.
Proof. intros H. rewrite Rabs_pos_eq by (left; apply Rinv_0_lt_compat; lra). apply Rinv_le_contravar; lra. Qed.
Lemma abs_le a A : 0 <= a <= A -> Rabs a <= A.
Proof. intros. rewrite Rabs_pos_eq; lra. Qed.

Definition cheb_max (A B : list R) (l : R) : R := Rsum (map (fun iab => Rabs (fst (snd iab)) + l * Rabs (snd (snd iab))) (combine (arange 8) (combine A B))).
Lemma ln_nonneg x : 1 <= x -> 0 <= ln x.
Proof. intros H. rewrite <- ln_1. destruct H as [H|<-]; [left; apply ln_increasing; lra|right; reflexivity]. Qed.
Lemma ln_mono x y : 0 < x <= y -> ln x <= ln y.
Proof. intros [H [L|<-]]; [left; apply ln_increasing; assumption|right; reflexivity]. Qed.
Lemma cheb_max_nonneg A B l : 0 <= l -> 0 <= cheb_max A B l.
Proof. intros H. unfold cheb_max. apply Rsum_ge_0. intros [i [a b]]. cbn. pose proof (Rabs_pos a). pose proof (Rabs_pos b). nra. Qed.
Lemma chebyshev_bound A B p pm : 0 < pm <= p -> p <= 1 -> Rabs (chebyshev A B p) <= cheb_max A B (ln (/ pm)).
Proof.
  intros Hp H1. unfold chebyshev, cheb_max. apply Rsum_abs. intros [i [a b]] _. cbn [fst snd].
  assert (P : 0 < p) by lra. assert (L : 0 <= ln (1 / p) <= ln (/ pm)).
  { split; [apply ln_nonneg; unfold Rdiv; rewrite Rmult_1_l, <- Rinv_1; apply Rinv_le_contravar; lra|]. apply ln_mono. unfold Rdiv. rewrite Rmult_1_l. split; [apply Rinv_0_lt_compat; exact P|apply Rinv_le_contravar; lra]. }
  rewrite <- (Rmult_1_r (Rabs a + _)). apply abs_mul.
  - apply abs_add; [apply Rle_refl|]. apply abs_mul; [apply abs_le; exact L|apply Rle_refl].
  - apply abs_le. split; [apply pow_le; lra|]. rewrite <- (pow1 i). apply pow_incr. lra.
Qed.

Definition log_max (Y delta : R) : R := ln (/ (delta * delta * / (5 * (Y * Y)))).
Definition K_max (Y delta : R) : R := cheb_max KA KB (log_max Y delta).
Definition E_max (Y delta : R) : R := cheb_max EA EB (log_max Y delta).
Definition over_max (delta x : R) : R := x * (/ (delta * delta) * / delta).
Definition dz1_max (Y delta : R) : R := / PI * over_max delta (Y * Y * E_max Y delta).
Definition dr1_max (Y delta : R) : R := / PI * (/ 2 * (/ MIN_DISTANCE_AXIS * over_max delta (Y * (2 * (Y * Y)) * K_max Y delta + (2 * Y * Y * Y + Y * (Y * Y + Y * Y)) * E_max Y delta))).
Definition cz_max (Y delta : R) : R := / PI * (/ 2 * over_max delta ((Y * Y + (Y * Y + Y * Y)) * E_max Y delta + 2 * (Y * Y) * K_max Y delta)).
Definition cr_max (Y delta : R) : R := / PI * (/ 2 * (/ MIN_DISTANCE_AXIS * over_max delta (Y * ((Y * Y + Y * Y + Y * Y) * E_max Y delta + 2 * (Y * Y) * K_max Y delta)))).

Section Kernels.
  Context (r0 z0 r z Y delta : R) (H0 : 0 <= r0 <= Y) (Hr : 0 <= r <= Y) (Hz : Rabs (z - z0) <= Y) (Hd : 0 < delta).
  Definition DD : R := (z - z0) * (z - z0) + (r - r0) * (r - r0).
  Definition SS : R := (z - z0) * (z - z0) + (r + r0) * (r + r0).
  Context (Far : delta * delta <= DD).
  Lemma z_range : - Y <= z - z0 <= Y. Proof. apply Rabs_le_between. exact Hz. Qed.
  Lemma Y_pos : 0 < Y.
  Proof.
    pose proof z_range. destruct (Req_dec Y 0) as [E|N]; [|lra]. exfalso. assert (DD = 0); [|nra]. unfold DD. assert (E1 : z - z0 = 0) by lra. assert (E2 : r - r0 = 0) by lra. rewrite E1, E2. ring.
  Qed.
  Lemma DD_pos : 0 < DD. Proof. nra. Qed.
  Lemma DD_SS : DD <= SS. Proof. unfold DD, SS. pose proof (Rmult_le_pos r r0 ltac:(lra) ltac:(lra)). lra. Qed.
  Lemma sq_le a : - Y <= a <= Y -> 0 <= a * a <= Y * Y. Proof. intros. nra. Qed.
  Lemma DD_le : DD <= 2 * (Y * Y).
  Proof. unfold DD. pose proof (sq_le _ z_range). pose proof (sq_le (r - r0) ltac:(lra)). lra. Qed.
  Lemma SS_le : SS <= 5 * (Y * Y).
  Proof. unfold SS. pose proof (sq_le _ z_range). assert ((r + r0) * (r + r0) <= 2 * Y * (2 * Y)) by (apply Rmult_le_compat; lra). lra. Qed.
  Lemma ratio : 0 < delta * delta * / (5 * (Y * Y)) <= DD / SS /\ DD / SS <= 1.
  Proof.
    pose proof DD_pos. pose proof DD_SS. pose proof SS_le. pose proof Y_pos. assert (0 < Y * Y) by nra. assert (0 < delta * delta) by nra. split; [split|].
    - apply Rmult_lt_0_compat; [assumption|apply Rinv_0_lt_compat; lra].
    - unfold Rdiv. apply Rmult_le_compat; [lra|left; apply Rinv_0_lt_compat; lra|exact Far|apply Rinv_le_contravar; lra].
    - apply Rmult_le_reg_r with SS; [lra|]. unfold Rdiv. rewrite Rmult_assoc, Rinv_l by lra. lra.
  Qed.
  Lemma abs_K : Rabs (ellipkm1 (DD / SS)) <= K_max Y delta.
  Proof. apply (chebyshev_bound KA KB); apply ratio. Qed.
  Lemma abs_E : Rabs (ellipem1 (DD / SS)) <= E_max Y delta.
  Proof. apply (chebyshev_bound EA EB); apply ratio. Qed.
  Lemma sqrt_SS : delta <= sqrt SS.
  Proof. rewrite <- (sqrt_square delta) by lra. apply sqrt_le_1; [nra|pose proof DD_SS; pose proof DD_pos; lra|pose proof DD_SS; lra]. Qed.
  Lemma abs_over a A : Rabs a <= A -> Rabs (a * (/ DD * / sqrt SS)) <= over_max delta A.
  Proof. intros H. apply abs_mul; [exact H|]. apply abs_mul; apply abs_inv; (split; [nra|]); [exact Far|apply sqrt_SS]. Qed.
  Lemma abs_const x : 0 <= x -> Rabs x <= x. Proof. intros. apply abs_le. lra. Qed.
  Lemma abs_dr : Rabs (r - r0) <= Y. Proof. apply Rabs_le_between. lra. Qed.
  Lemma abs_r : Rabs r <= Y. Proof. apply abs_le. lra. Qed.
  Lemma abs_r0 : Rabs r0 <= Y. Proof. apply abs_le. lra. Qed.
  Lemma abs_DD : Rabs DD <= 2 * (Y * Y). Proof. apply abs_le. pose proof DD_pos. pose proof DD_le. lra. Qed.
  Lemma PI_part : Rabs (/ PI) <= / PI. Proof. apply abs_const. left. apply Rinv_0_lt_compat, PI_RGT_0. Qed.
  Lemma half_part : Rabs (/ 2) <= / 2. Proof. apply abs_const. lra. Qed.
  Ltac atoms := first [apply abs_K | apply abs_E | exact abs_DD | exact abs_dr | exact abs_r | exact abs_r0 | exact Hz | exact PI_part | exact half_part | (apply abs_const; lra)].
  Ltac bound := repeat first [atoms | apply abs_mul | apply abs_add | apply abs_sub | apply abs_opp].
  Lemma dz1_bound : Rabs (dz1_potential_radial_ring r0 z0 r z) <= dz1_max Y delta.
  Proof.
    pose proof DD_pos. pose proof sqrt_SS. pose proof PI_RGT_0.
    assert (E : dz1_potential_radial_ring r0 z0 r z = / PI * ((z - z0) * r * ellipem1 (DD / SS) * (/ DD * / sqrt SS))).
    { unfold dz1_potential_radial_ring. cbv zeta. replace (4 * r0 * r0 + 4 * (r - r0) * r0 + (z - z0) * (z - z0) + (r - r0) * (r - r0)) with SS by (unfold SS; ring). change ((z - z0) * (z - z0) + (r - r0) * (r - r0)) with DD. field. lra. }
    rewrite E. unfold dz1_max. apply abs_mul; [exact PI_part|]. apply abs_over. bound.
  Qed.
  Lemma dr1_bound : Rabs (dr1_potential_radial_ring r0 z0 r z) <= dr1_max Y delta.
  Proof.
    pose proof DD_pos as PD. pose proof sqrt_SS as PS. pose proof PI_RGT_0 as PP. assert (PM : 0 < MIN_DISTANCE_AXIS) by (unfold MIN_DISTANCE_AXIS; lra).
    destruct (Rlt_dec r0 MIN_DISTANCE_AXIS) as [L|L].
    { unfold dr1_potential_radial_ring. destruct (Rlt_dec _ _); [|contradiction]. rewrite Rabs_R0. eapply Rle_trans; [apply Rabs_pos|].
      unfold dr1_max. apply abs_mul; [exact PI_part|]. apply abs_mul; [exact half_part|]. apply abs_mul; [apply abs_inv; split; [exact PM|apply Rle_refl]|]. apply (abs_over (r * DD * ellipkm1 (DD / SS) + (2 * r * r * (r - r0) + r * ((r - r0) * (r - r0) + (z - z0) * (z - z0))) * ellipem1 (DD / SS))). bound. }
    assert (E : dr1_potential_radial_ring r0 z0 r z = / PI * (/ 2 * (/ r0 * (- (r * DD * ellipkm1 (DD / SS) + (-2 * r * r * (r - r0) + r * ((r - r0) * (r - r0) - (z - z0) * (z - z0))) * ellipem1 (DD / SS)) * (/ DD * / sqrt SS))))).
    { unfold dr1_potential_radial_ring. destruct (Rlt_dec _ _); [contradiction|]. cbv zeta.
      replace (4 * r * r - 4 * (r - r0) * r + (z - z0) * (z - z0) + (r - r0) * (r - r0)) with SS by (unfold SS; ring). fold DD. set (K := ellipkm1 _). set (E := ellipem1 _).
      replace (-2 * (r - r0) * (r - r0) * r + (z - z0) * (z - z0) * (2 * (r - r0) - 2 * r) + 2 * (r - r0) * (r - r0) * (r - r0)) with (-2 * r0 * DD) by (unfold DD; ring).
      replace ((z - z0) * (z - z0) * r + (r - r0) * (r - r0) * r) with (r * DD) by (unfold DD; ring). field. repeat split; lra. }
    rewrite E. unfold dr1_max. apply abs_mul; [exact PI_part|]. apply abs_mul; [exact half_part|]. apply abs_mul; [apply abs_inv; lra|]. apply abs_over. apply abs_opp, abs_add; [bound|]. apply abs_mul; [|bound]. apply abs_add; [|bound].
    replace (-2 * r * r * (r - r0)) with (- (2 * r * r * (r - r0))) by ring. bound.
  Qed.
  Lemma ring_elliptic : MIN_DISTANCE_AXIS <= r -> (z0 - z) ^ 2 + (r + r0) ^ 2 = SS /\ (z0 - z) ^ 2 + (r0 - r) ^ 2 = DD /\
    ellipk (4 * r0 * r / SS) = ellipkm1 (DD / SS) /\ ellipe (4 * r0 * r / SS) = ellipem1 (DD / SS).
  Proof.
    intros HM. pose proof DD_pos as PD. pose proof DD_SS as PS. assert (PX : 0 < r) by (unfold MIN_DISTANCE_AXIS in HM; lra).
    split; [unfold SS; ring|]. split; [unfold DD; ring|]. set (k := 4 * r0 * r / SS). assert (EK : 1 - k = DD / SS). { unfold k. replace DD with (SS - 4 * r0 * r) by (unfold DD, SS; ring). field. lra. }
    assert (KP : 0 <= k). { unfold k. apply Rmult_le_pos; [|left; apply Rinv_0_lt_compat; lra]. apply Rmult_le_pos; lra. }
    assert (K1 : k < 1). { assert (0 < DD / SS) by (apply Rdiv_lt_0_compat; lra). lra. }
    unfold ellipk, ellipe. destruct (Rlt_dec (-1) k) as [_|N]; [|lra]. destruct (Rle_dec 0 k) as [_|N]; [|lra]. destruct (Rle_dec k 1) as [_|N]; [|lra]. rewrite EK. split; reflexivity.
  Qed.
  Lemma current_bound : Rabs (fst (current_field_radial_ring r0 z0 r z)) <= cr_max Y delta /\ Rabs (snd (current_field_radial_ring r0 z0 r z)) <= cz_max Y delta.
  Proof.
    pose proof DD_pos as PD. pose proof sqrt_SS as PS. pose proof PI_RGT_0 as PP. assert (PM : 0 < MIN_DISTANCE_AXIS) by (unfold MIN_DISTANCE_AXIS; lra).
    assert (BR : Rabs (/ PI * (/ 2 * (/ MIN_DISTANCE_AXIS * ((z - z0) * (((z - z0) * (z - z0) + r0 * r0 + r * r) * ellipem1 (DD / SS) + DD * ellipkm1 (DD / SS)) * (/ DD * / sqrt SS))))) <= cr_max Y delta).
    { unfold cr_max. apply abs_mul; [exact PI_part|]. apply abs_mul; [exact half_part|]. apply abs_mul; [apply abs_inv; split; [exact PM|apply Rle_refl]|]. apply abs_over. bound. }
    assert (BZ : Rabs (/ PI * (/ 2 * (((r * r - ((z - z0) * (z - z0) + r0 * r0)) * ellipem1 (DD / SS) + DD * ellipkm1 (DD / SS)) * (/ DD * / sqrt SS)))) <= cz_max Y delta).
    { unfold cz_max. apply abs_mul; [exact PI_part|]. apply abs_mul; [exact half_part|]. apply abs_over. bound. }
    assert (P1 : 0 <= cr_max Y delta) by (eapply Rle_trans; [apply Rabs_pos|exact BR]). assert (P2 : 0 <= cz_max Y delta) by (eapply Rle_trans; [apply Rabs_pos|exact BZ]).
    unfold current_field_radial_ring. cbv zeta. destruct (Rlt_dec r MIN_DISTANCE_AXIS) as [L|L]; [cbn [fst snd]; rewrite Rabs_R0; split; assumption|].
    destruct (ring_elliptic ltac:(lra)) as (ES & ED & EK & EE). rewrite ES, ED, EK, EE. cbn [fst snd]. split.
    - destruct (Rlt_dec r0 MIN_DISTANCE_AXIS) as [L0|L0]; [rewrite Rabs_R0; exact P1|].
      match goal with |- Rabs ?x <= _ => replace x with (/ PI * (/ 2 * (/ r0 * (- ((z - z0) * (((z - z0) * (z - z0) + r0 * r0 + r * r) * ellipem1 (DD / SS) - DD * ellipkm1 (DD / SS))) * (/ DD * / sqrt SS))))) end.
      + unfold cr_max. apply abs_mul; [exact PI_part|]. apply abs_mul; [exact half_part|]. apply abs_mul; [apply abs_inv; lra|]. apply abs_over. bound.
      + set (K := ellipkm1 _). set (E := ellipem1 _). field. repeat split; lra.
    - match goal with |- Rabs ?x <= _ => replace x with (/ PI * (/ 2 * (((r * r - ((z - z0) * (z - z0) + r0 * r0)) * ellipem1 (DD / SS) + DD * ellipkm1 (DD / SS)) * (/ DD * / sqrt SS)))) end.
      + exact BZ.
      + set (K := ellipkm1 _). set (E := ellipem1 _). field. repeat split; lra.
  Qed.
End Kernels.

(** Bounds on whole fields, for points whose coordinates are at most [X]. *)
Definition reach (X : R) (q : vec3) : R := 2 * X + Rabs (vx q) + Rabs (vz q).
Definition field_max (X delta : R) (c : charges) : R := 2 * weight (fun q => dr1_max (reach X q) delta) c + weight (fun q => dz1_max (reach X q) delta) c.
Definition coil_max (X delta : R) (c : charges) : R := 2 * weight (fun q => cr_max (reach X q) delta) c + weight (fun q => cz_max (reach X q) delta) c.
Definition coords_at_most (X : R) (p : vec3) : Prop := Rabs (vx p) <= X /\ Rabs (vy p) <= X /\ Rabs (vz p) <= X.
Lemma norm_2d_le x y X : Rabs x <= X -> Rabs y <= X -> 0 <= norm_2d x y <= 2 * X.
Proof.
  intros Hx Hy. unfold norm_2d. split; [apply sqrt_pos|]. pose proof (Rabs_pos x). rewrite <- (sqrt_square (2 * X)) by lra. apply Rabs_le_between in Hx, Hy. apply sqrt_le_1; nra.
Qed.
Lemma norm_2d_ge x y : Rabs x <= norm_2d x y /\ Rabs y <= norm_2d x y.
Proof. unfold norm_2d. split; (rewrite <- sqrt_Rsqr_abs; apply sqrt_le_1; unfold Rsqr; nra). Qed.
Lemma cylinder_bound p Er Ez : norm (from_cylinder p Er Ez) <= 2 * Rabs Er + Rabs Ez.
Proof.
  eapply Rle_trans; [apply norm_le_sum|]. unfold from_cylinder. destruct (Rle_dec _ _) as [L|L]; cbn [vx vy vz].
  - set (r := norm_2d (vx p) (vy p)) in *. assert (P : 0 < r) by (unfold MIN_DISTANCE_AXIS in L; lra). destruct (norm_2d_ge (vx p) (vy p)) as [A B]. fold r in A, B.
    assert (Q : forall a, Rabs a <= r -> Rabs (a / r * Er) <= Rabs Er).
    { intros a Ha. rewrite <- (Rmult_1_l (Rabs Er)). apply abs_mul; [|apply Rle_refl]. unfold Rdiv. replace 1 with (r * / r) by (field; lra). apply abs_mul; [exact Ha|]. apply abs_inv. lra. }
    pose proof (Q _ A). pose proof (Q _ B). lra.
  - rewrite Rabs_R0. pose proof (Rabs_pos Er). lra.
Qed.
Section Fields.
  Context (X delta : R) (Hd : 0 < delta) (p : vec3) (Hp : coords_at_most X p).
  Notation r0 := (norm_2d (vx p) (vy p)).
  Lemma far_ring c x jp : clear_of_rings delta c p -> In x (q_items c) -> In jp (snd x) -> let q := snd jp in
    0 <= r0 <= reach X q /\ 0 <= vx q <= reach X q /\ Rabs (vz q - vz p) <= reach X q /\ delta * delta <= DD r0 (vz p) (vx q) (vz q).
  Proof.
    intros H Hx Hj q. destruct (H x jp Hx Hj) as [R0 D]. fold q in R0, D. destruct Hp as (Px & Py & Pz). pose proof (norm_2d_le _ _ _ Px Py) as N. unfold reach.
    pose proof (Rabs_pos (vx q)). pose proof (Rabs_pos (vz q)). pose proof (Rle_abs (vx q)). pose proof (Rabs_pos (vx p)). split; [lra|]. split; [lra|]. split.
    - eapply Rle_trans; [apply (abs_sub _ _ (Rabs (vz q)) X); [apply Rle_refl|exact Pz]|]. lra.
    - apply Rle_trans with (norm_2d (vx q - r0) (vz q - vz p) * norm_2d (vx q - r0) (vz q - vz p)); [apply Rmult_le_compat; lra|]. unfold DD. set (a := vx q - r0). set (b := vz q - vz p). unfold norm_2d. rewrite sqrt_sqrt by (apply Rplus_le_le_0_compat; apply Rle_0_sqr). lra.
  Qed.
  Lemma field_radial_bound c : clear_of_rings delta c p -> norm (field_radial p c) <= field_max X delta c.
  Proof.
    intros H. eapply Rle_trans; [apply cylinder_bound|]. rewrite !Rabs_Ropp. unfold field_max.
    assert (A : Rabs (evaluate (fun q => dr1_potential_radial_ring r0 (vz p) (vx q) (vz q)) c) <= weight (fun q => dr1_max (reach X q) delta) c).
    { apply evaluate_abs. intros x Hx jp Hj. destruct (far_ring c x jp H Hx Hj) as (A1 & A2 & A3 & A4). apply dr1_bound; assumption. }
    assert (B : Rabs (evaluate (fun q => dz1_potential_radial_ring r0 (vz p) (vx q) (vz q)) c) <= weight (fun q => dz1_max (reach X q) delta) c).
    { apply evaluate_abs. intros x Hx jp Hj. destruct (far_ring c x jp H Hx Hj) as (A1 & A2 & A3 & A4). apply dz1_bound; assumption. }
    lra.
  Qed.
  Lemma coil_bound c : clear_of_rings delta c p -> norm (current_field p c) <= coil_max X delta c.
  Proof.
    intros H. eapply Rle_trans; [apply cylinder_bound|]. unfold coil_max.
    assert (A : Rabs (evaluate (fun q => fst (current_field_radial_ring r0 (vz p) (vx q) (vz q))) c) <= weight (fun q => cr_max (reach X q) delta) c).
    { apply evaluate_abs. intros x Hx jp Hj. destruct (far_ring c x jp H Hx Hj) as (A1 & A2 & A3 & A4). apply current_bound; assumption. }
    assert (B : Rabs (evaluate (fun q => snd (current_field_radial_ring r0 (vz p) (vx q) (vz q))) c) <= weight (fun q => cz_max (reach X q) delta) c).
    { apply evaluate_abs. intros x Hx jp Hj. destruct (far_ring c x jp H Hx Hj) as (A1 & A2 & A3 & A4). apply current_bound; assumption. }
    lra.
  Qed.
End Fields.
