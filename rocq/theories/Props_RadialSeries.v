(** Property theorems about the accuracy of the radial series: C80, C81. *)
From Coq Require Import Reals ZArith Lra Lia Psatz.
From Coquelicot Require Import Coquelicot.
From Verif Require Import Base BaseFacts Vec GeomModel OutwardFacts FieldModel FieldFacts SeriesModel SeriesFacts InterpFacts DispatchModel
  EllipticSpec EllipticFacts RingModel RingFacts LoopFacts LegendreFacts RadialSeriesFacts RingSeriesFacts AxialModel AxialErrorFacts
  Props_Series Props_Elliptic Props_AxialError.
Local Open Scope R_scope.

(** ** C80 Accuracy of the radial series *)
(** The potential of charged rings, each the integral over its circle of the potential of a point charge. *)
Definition ring_potential (c : charges) (p : vec3) : R :=
  evaluate (fun q => RInt (fun phi => vx q * potential_3d_point p (circle (vx q) (vz q) phi)) 0 (2 * PI)) c.
(** The distance of the ring through [q] from the point of the axis at height [z]. *)
Definition ring_distance (z : R) (q : vec3) : R := sqrt ((z - vz q) ^ 2 + vx q ^ 2).
(** all rings have positive radius and are farther away from the foot of [p] on the axis than [p] itself *)
Definition inside_rings (c : charges) (p : vec3) : Prop :=
  forall x jp, In x (q_items c) -> In jp (snd x) -> 0 < vx (snd jp) /\ norm_2d (vx p) (vy p) < ring_distance (vz p) (snd jp).
Definition truncation (rho D : R) : R := (rho / D) ^ 10 * (D + rho) / (D - rho) ^ 2.

Lemma evaluate_minus K K' c : evaluate K c - evaluate K' c = evaluate (fun q => K q - K' q) c.
Proof.
  unfold evaluate. unfold Rminus at 1. rewrite <- Rsum_opp, <- Rsum_plus. apply Rsum_ext. intros x _. unfold source_sum.
  replace (fst x * Rsum (map (fun jp => fst jp * K (snd jp)) (snd x)) + - (fst x * Rsum (map (fun jp => fst jp * K' (snd jp)) (snd x))))
    with (fst x * (Rsum (map (fun jp => fst jp * K (snd jp)) (snd x)) + - Rsum (map (fun jp => fst jp * K' (snd jp)) (snd x)))) by ring.
  f_equal. rewrite <- Rsum_opp, <- Rsum_plus. apply Rsum_ext. intros jp _. ring.
Qed.
Lemma evaluate_series (d : vec3 -> nat -> R) c rho : evaluate (fun q => potential_series (d q) rho) c = potential_series (fun n => evaluate (fun q => d q n) c) rho.
Proof.
  assert (G : forall A (g : A -> nat -> R) (l : list A), Rsum (map (fun a => potential_series (g a) rho) l) = potential_series (fun n => Rsum (map (fun a => g a n) l)) rho).
  { intros A g l. induction l as [|a l IH]; [unfold potential_series; cbn; lra|].
    change (potential_series (g a) rho + Rsum (map (fun a => potential_series (g a) rho) l) = potential_series (fun n => g a n + Rsum (map (fun a => g a n) l)) rho). rewrite IH. unfold potential_series. lra. }
  assert (Sc : forall k g, k * potential_series g rho = potential_series (fun n => k * g n) rho) by (intros k g; unfold potential_series; ring).
  unfold evaluate, source_sum. rewrite <- G. apply Rsum_ext. intros x _. rewrite <- Sc, <- G. f_equal. apply Rsum_ext. intros jp _. apply Sc.
Qed.
Lemma ring_distance_norm z q : ring_distance z q = norm_2d (z - vz q) (vx q).
Proof. apply sqrt_norm_2d. Qed.
Lemma series_exact c p : inside_rings c p ->
  Rabs (ring_potential c p - potential_series (fun n => evaluate (fun q => vx q / 2 * ring_D (vx q) n (vz p - vz q)) c) (norm_2d (vx p) (vy p))) <=
  weight (fun q => vx q / 2 * truncation (norm_2d (vx p) (vy p)) (ring_distance (vz p) q)) c.
Proof.
  intros H. set (rho := norm_2d (vx p) (vy p)).
  rewrite <- (evaluate_series (fun q n => vx q / 2 * ring_D (vx q) n (vz p - vz q)) c rho). unfold ring_potential. rewrite evaluate_minus. apply evaluate_abs. intros x Hx jp Hjp.
  destruct (H x jp Hx Hjp) as [Hr Hd]. rewrite ring_distance_norm in *. pose proof (ring_series_error p (vx (snd jp)) (vz (snd jp)) Hr Hd) as E. cbv zeta in E. fold rho in E.
  replace (potential_series (fun n => vx (snd jp) / 2 * ring_D (vx (snd jp)) n (vz p - vz (snd jp))) rho) with (vx (snd jp) / 2 * potential_series (fun n => ring_D (vx (snd jp)) n (vz p - vz (snd jp))) rho) by (unfold potential_series; ring).
  exact E.
Qed.
(** The series of the code (radial.c:312-343), given the exact derivatives of the axial potential, approximates the potential of the
    rings with an error of tenth order in the ratio of the distances. *)
Theorem C80_truncation c p d : inside_rings c p ->
  (forall n, (n <= 8)%nat -> is_derive_n (fun s => evaluate (fun q => vx q / (2 * sqrt ((s - vz q) ^ 2 + vx q ^ 2))) c) n (vz p) (d n)) ->
  Rabs (ring_potential c p - potential_series d (norm_2d (vx p) (vy p))) <=
  Rsum (map (fun x => Rabs (fst x) * Rsum (map (fun jp => Rabs (fst jp) *
    (vx (snd jp) / 2 * truncation (norm_2d (vx p) (vy p)) (ring_distance (vz p) (snd jp)))) (snd x))) (q_items c)).
Proof.
  intros H Hd. assert (Ho : off_axis c) by (intros x Hx jp Hjp; destruct (H x jp Hx Hjp); lra).
  rewrite (potential_series_ext d (fun n => evaluate (fun q => vx q / 2 * ring_D (vx q) n (vz p - vz q)) c)); [exact (series_exact c p H)|].
  intros n Hn _. assert (Hn8 : (n <= 8)%nat) by lia.
  assert (E : is_derive_n (fun s => evaluate (fun q => vx q / (2 * sqrt ((s - vz q) ^ 2 + vx q ^ 2))) c) n (vz p) (evaluate (fun q => vx q / 2 * ring_D (vx q) n (vz p - vz q)) c)).
  { apply (chain_is_derive_n (fun n s => evaluate (fun q => vx q / 2 * ring_D (vx q) n (s - vz q)) c)).
    - apply (evaluate_chain (fun n s q => vx q / 2 * ring_D (vx q) n (s - vz q))); [|exact Ho]. intros q Hq. apply (ring_chain (vx q) (vz q) Hq).
    - intros s. apply evaluate_ext. intros x Hx jp Hjp. apply ring_0. apply (Ho x Hx jp Hjp). }
  specialize (Hd n Hn8). destruct n as [|n].
  - cbn in Hd, E. rewrite Hd in E. exact E.
  - transitivity (Derive_n (fun s => evaluate (fun q => vx q / (2 * sqrt ((s - vz q) ^ 2 + vx q ^ 2))) c) (S n) (vz p)); [symmetry|]; apply is_derive_n_unique; assumption.
Qed.
Print Assumptions C80_truncation.
(** The potential of the rings is what a radial field reports, up to the approximation of the elliptic integrals (C56). *)
Theorem C80_radial c p : inside_rings c p -> potential_radial_of exact_km1 p c = ring_potential c p.
Proof.
  intros H. apply C56_potential. intros x jp Hx Hjp. destruct (H x jp Hx Hjp) as [Hr Hd]. split; [exact Hr|]. intros [E1 E2].
  unfold ring_distance in Hd. rewrite E2 in Hd. replace ((vz (snd jp) - vz (snd jp)) ^ 2 + vx (snd jp) ^ 2) with (Rsqr (vx (snd jp))) in Hd by (unfold Rsqr; ring). rewrite sqrt_Rsqr in Hd by lra. lra.
Qed.
Print Assumptions C80_radial.
Example C80_nonvacuous : inside_rings (mkcharges LINE_RULE [(3, [(1, V3 2 0 0); (2, V3 2 0 (1/2))])]) (V3 1 0 0) /\ truncation 1 2 = 3 / 1024.
Proof.
  split; [|unfold truncation; field]. intros x jp [<-|[]] Hjp. assert (n1 : norm_2d 1 0 = 1) by (unfold norm_2d; replace (1 * 1 + 0 * 0) with 1 by ring; exact sqrt_1).
  cbn [vx vy vz]. rewrite n1. assert (Q : forall z, 1 < sqrt ((0 - z) ^ 2 + 2 ^ 2)). { intros z. rewrite <- sqrt_1 at 1. apply sqrt_lt_1_alt. pose proof (pow2_ge_0 (0 - z)). lra. }
  destruct Hjp as [<-|[<-|[]]]; unfold ring_distance; cbn [vx vz snd]; (split; [lra|apply Q]).
Qed.

(** ** C81 Accuracy of FieldRadialAxial off the axis *)
Lemma fact_10 : INR (fact 10) = 3628800.
Proof. rewrite !fact_S. change (fact 0) with 1%nat. cbn [INR]. ring. Qed.
Lemma fact_12 : INR (fact 12) = 479001600.
Proof. rewrite !fact_S. change (fact 0) with 1%nat. cbn [INR]. ring. Qed.
Lemma truncation_mono rho D D' : 0 <= rho < D -> D <= D' -> truncation rho D' <= truncation rho D.
Proof.
  intros H HD. unfold truncation. unfold Rdiv at 1 3. rewrite !Rmult_assoc. apply Rmult_le_compat.
  - apply pow_le. apply Rmult_le_pos; [lra|apply Rlt_le, Rinv_0_lt_compat; lra].
  - apply Rmult_le_pos; [lra|]. apply Rlt_le, Rinv_0_lt_compat, pow_lt. lra.
  - apply pow_incr. split; [apply Rmult_le_pos; [lra|apply Rlt_le, Rinv_0_lt_compat; lra]|]. apply Rmult_le_compat_l; [lra|]. apply Rinv_le_contravar; lra.
  - apply (Rmult_le_reg_r ((D - rho) ^ 2 * (D' - rho) ^ 2)); [apply Rmult_lt_0_compat; apply pow_lt; lra|].
    replace ((D' + rho) * / (D' - rho) ^ 2 * ((D - rho) ^ 2 * (D' - rho) ^ 2)) with ((D' + rho) * (D - rho) ^ 2) by (field; lra).
    replace ((D + rho) * / (D - rho) ^ 2 * ((D - rho) ^ 2 * (D' - rho) ^ 2)) with ((D + rho) * (D' - rho) ^ 2) by (field; lra).
    set (a := D - rho). set (e := D' - D). replace (D' + rho) with (a + e + 2 * rho) by (unfold a, e; ring). replace (D + rho) with (a + 2 * rho) by (unfold a; ring). replace (D' - rho) with (a + e) by (unfold a, e; ring).
    assert (0 < a) by (unfold a; lra). assert (0 <= e) by (unfold e; lra).
    assert (0 <= e * a ^ 2) by (apply Rmult_le_pos; [assumption|apply pow2_ge_0]). assert (0 <= rho * e * a) by (apply Rmult_le_pos; [apply Rmult_le_pos|]; lra). assert (0 <= a * e ^ 2) by (apply Rmult_le_pos; [lra|apply pow2_ge_0]). assert (0 <= rho * e ^ 2) by (apply Rmult_le_pos; [lra|apply pow2_ge_0]). nra.
Qed.
(** For every field built from a radial field with charged rings of positive radius, all at least [D] away from the axis between zmin
    and zmax, and every point closer to the axis than that: the reported potential differs from the potential of the rings at most by
    the interpolation error, the truncation error of the series, and the error eps of the cubic spline that interpolates the eighth
    derivative times rho^8/147456. *)
Theorem C81_potential spline f zmin zmax N A p D eps : b_class f = FieldRadialBEM -> zmin < zmax -> (2 <= number_of_samples f N)%nat ->
  field_radial_axial spline f zmin zmax N = Ok A -> zmin <= vz p < zmax ->
  (forall x jp, In x (q_items (b_elec f)) -> In jp (snd x) -> 0 < vx (snd jp) /\ forall s, zmin <= s <= zmax -> D <= ring_distance s (snd jp)) ->
  let rho := norm_2d (vx p) (vy p) in let h := (zmax - zmin) / INR (number_of_samples f N - 1) in let S := total_strength (sources true f) in let t := rho / D in
  rho < D ->
  (forall d, series_derivs (a_z A) (a_elec A) (vz p) = Ok (Some d) -> Rabs (d 8%nat - Derive_n (axial_electric_potential f) 8 (vz p)) <= eps) ->
  exists v, axial_potential true A p = Ok v /\
    Rabs (v - ring_potential (b_elec f) p) <=
      S / (2 * D) * (h / (2 * D)) ^ 6 * (1 + 14 * t ^ 2 + 315 / 4 * t ^ 4 + 1155 / 4 * t ^ 6) + S / 2 * truncation rho D + eps * rho ^ 8 / 147456.
Proof.
  intros Hc Hab HN HA Hz Haw rho h S t Hlt Heps. assert (Hrho : 0 <= rho) by apply norm_2d_nonneg. assert (HD : 0 < D) by lra.
  assert (Aw : away zmin zmax D (sources true f)).
  { intros c x jp [<-|[]] Hx Hjp. destruct (Haw x jp Hx Hjp) as [Hr Hd]. split; [lra|]. exact Hd. }
  destruct (away_sources true zmin zmax D f Aw) as [Ho Ha].
  destruct (axial_accuracy spline f zmin zmax N A true (vz p) D Hc Hab HN HA Hz Ho HD Ha) as (d & Ed & Err & _). fold (range_step zmin zmax (number_of_samples f N)) in h. fold h in Err.
  exists (potential_series d rho). unfold axial_potential, potential_radial_derivs. cbn [axial_table] in Ed. rewrite Ed. cbn [bind]. split; [reflexivity|].
  assert (In8 : inside_rings (b_elec f) p).
  { intros x jp Hx Hjp. destruct (Haw x jp Hx Hjp) as [Hr Hd]. split; [exact Hr|]. fold rho. specialize (Hd (vz p) ltac:(lra)). lra. }
  pose proof (series_exact (b_elec f) p In8) as TE. fold rho in TE. fold (elec_chain f) in TE.
  change (fun n => evaluate (fun q => vx q / 2 * ring_D (vx q) n (vz p - vz q)) (b_elec f)) with (fun n => axial_chain true f n (vz p)) in TE.
  set (T := potential_series (fun n => axial_chain true f n (vz p)) rho) in TE.
  assert (TB : weight (fun q => vx q / 2 * truncation rho (ring_distance (vz p) q)) (b_elec f) <= S / 2 * truncation rho D).
  { apply Rle_trans with (weight (fun q => truncation rho D / 2 * Rabs (vx q)) (b_elec f)).
    - apply weight_mono. intros x Hx jp Hjp. destruct (Haw x jp Hx Hjp) as [Hr Hd]. specialize (Hd (vz p) ltac:(lra)). rewrite Rabs_pos_eq by lra.
      pose proof (truncation_mono rho D (ring_distance (vz p) (snd jp)) ltac:(lra) Hd). nra.
    - rewrite weight_scale. right. unfold S. rewrite <- strength_total. cbn [strength]. field. }
  assert (D8 : Derive_n (axial_electric_potential f) 8 (vz p) = axial_chain true f 8 (vz p)) by (apply is_derive_n_unique; apply (chain_n true f 8 (vz p) Ho)).
  specialize (Heps d Ed). rewrite D8 in Heps.
  pose proof (Err 0%nat ltac:(lia)) as E0. pose proof (Err 2%nat ltac:(lia)) as E2. pose proof (Err 4%nat ltac:(lia)) as E4. pose proof (Err 6%nat ltac:(lia)) as E6.
  unfold interpolation_error in E0, E2, E4, E6. rewrite strength_total in E0, E2, E4, E6. fold S in E0, E2, E4, E6.
  assert (F6 : INR (fact (0 + 6)) = 720) by (rewrite INR_IZR_INZ; apply f_equal; reflexivity). assert (F8 : INR (fact (2 + 6)) = 40320) by (rewrite INR_IZR_INZ; apply f_equal; reflexivity).
  pose proof fact_10 as F10. pose proof fact_12 as F12. change 10%nat with (4 + 6)%nat in F10. change 12%nat with (6 + 6)%nat in F12.
  rewrite F6 in E0. rewrite F8 in E2. rewrite F10 in E4. rewrite F12 in E6. cbn [Nat.add] in E0, E2, E4, E6. clear F6 F8 F10 F12.
  set (g := (h / (2 * D)) ^ 6) in *.
  assert (Split : potential_series d rho - T = (d 0%nat - axial_chain true f 0 (vz p)) - rho ^ 2 / 4 * (d 2%nat - axial_chain true f 2 (vz p)) + rho ^ 4 / 64 * (d 4%nat - axial_chain true f 4 (vz p))
     - rho ^ 6 / 2304 * (d 6%nat - axial_chain true f 6 (vz p)) + rho ^ 8 / 147456 * (d 8%nat - axial_chain true f 8 (vz p))) by (unfold T, potential_series; ring).
  assert (P2 : 0 <= rho ^ 2) by (apply pow_le; exact Hrho). assert (P4 : 0 <= rho ^ 4) by (apply pow_le; exact Hrho). assert (P6 : 0 <= rho ^ 6) by (apply pow_le; exact Hrho). assert (P8 : 0 <= rho ^ 8) by (apply pow_le; exact Hrho).
  assert (Sc : forall k x y, 0 <= k -> Rabs x <= y -> - (k * y) <= k * x <= k * y) by (intros k x y Hk Hx; apply Rabs_le_between in Hx; split; nra).
  pose proof (Sc 1 _ _ ltac:(lra) E0) as Q0. pose proof (Sc (rho ^ 2 / 4) _ _ ltac:(lra) E2) as Q2. pose proof (Sc (rho ^ 4 / 64) _ _ ltac:(lra) E4) as Q4. pose proof (Sc (rho ^ 6 / 2304) _ _ ltac:(lra) E6) as Q6. pose proof (Sc (rho ^ 8 / 147456) _ _ ltac:(lra) Heps) as Q8.
  assert (Sum : S / (2 * D) * g * (1 + 14 * t ^ 2 + 315 / 4 * t ^ 4 + 1155 / 4 * t ^ 6) =
     1 * (S / (2 * D ^ 1) * (720 / 720) * g) + rho ^ 2 / 4 * (S / (2 * D ^ 3) * (40320 / 720) * g) + rho ^ 4 / 64 * (S / (2 * D ^ 5) * (3628800 / 720) * g) + rho ^ 6 / 2304 * (S / (2 * D ^ 7) * (479001600 / 720) * g)).
  { unfold t. clearbody g S rho. field. lra. }
  rewrite Sum. apply Rabs_le_between in TE. apply Rabs_le. set (W := weight _ _) in *. clearbody W g T. unfold Rdiv in *. split; lra.
Qed.
Print Assumptions C81_potential.
Example C81_nonvacuous spline : exists A eps v, field_radial_axial spline ex_ring_field (-1) 1 (Some 21%nat) = Ok A /\ axial_potential true A (V3 1 0 0) = Ok v /\
  Rabs (v - ring_potential (b_elec ex_ring_field) (V3 1 0 0)) <=
    18 / (2 * 2) * ((1 - -1) / INR (21 - 1) / (2 * 2)) ^ 6 * (1 + 14 * (1 / 2) ^ 2 + 315 / 4 * (1 / 2) ^ 4 + 1155 / 4 * (1 / 2) ^ 6) + 18 / 2 * truncation 1 2 + eps * 1 ^ 8 / 147456.
Proof.
  destruct (C78_nonvacuous spline) as (A & HA & _ & _ & HS & _). exists A.
  destruct (axial_inside spline ex_ring_field (-1) 1 (Some 21%nat) A true 0 eq_refl ltac:(lra) ltac:(cbn; lia) HA ltac:(lra)) as (j & row & _ & _ & Ed & _). cbn [axial_table] in Ed.
  eexists. assert (n1 : norm_2d 1 0 = 1) by (unfold norm_2d; replace (1 * 1 + 0 * 0) with 1 by ring; exact sqrt_1).
  destruct (C81_potential spline ex_ring_field (-1) 1 (Some 21%nat) A (V3 1 0 0) 2
     (Rabs (poly_at (row 8%nat) (0 - (-1 + INR j * range_step (-1) 1 (number_of_samples ex_ring_field (Some 21%nat)))) - Derive_n (axial_electric_potential ex_ring_field) 8 0)) eq_refl ltac:(lra) ltac:(cbn; lia) HA) as (v & Hv & Hb).
  - cbn [vz]. lra.
  - assert (Q : forall s z r, 2 <= r -> 2 <= sqrt ((s - z) ^ 2 + r ^ 2)).
    { intros s z r Hr. rewrite <- (sqrt_Rsqr 2) by lra. apply sqrt_le_1_alt. pose proof (pow2_ge_0 (s - z)). unfold Rsqr. nra. }
    intros x jp [<-|[]] [<-|[<-|[]]]; unfold ring_distance; cbn [vx vz snd]; (split; [lra|intros s _; apply Q; lra]).
  - cbn [vx vy]. rewrite n1. lra.
  - cbn [vz]. intros d Hd. rewrite Ed in Hd. injection Hd as <-. right. reflexivity.
  - exists v. cbn [vx vy] in Hb. rewrite n1, HS in Hb. split; [exact HA|]. split; [exact Hv|]. exact Hb.
Qed.
