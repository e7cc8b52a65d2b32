(** Property theorems about the accuracy of axial fields: C78, C79. *)
From Coq Require Import Reals ZArith Lra Lia Psatz.
From Coquelicot Require Import Coquelicot.
From Verif Require Import Base BaseFacts Vec GeomModel OutwardFacts FieldModel FieldFacts SeriesModel SeriesFacts InterpFacts DispatchModel
  AxialModel HermiteError LegendreFacts AxialErrorFacts Props_Series.
Local Open Scope R_scope.

(** ** C78 Accuracy of FieldRadialAxial on the axis *)
(** The potential on the axis of the rings (and, in the magnetic case, the current loops) of a radial field. *)
Definition true_axial_potential (elec : bool) (f : bem) : R -> R := if elec then axial_electric_potential f else axial_magnetic_potential f.
Definition elec_sources (f : bem) : list charges := [b_elec f].
Definition mag_sources (f : bem) : list charges := [b_mag f; b_cur f].
Definition sources (elec : bool) (f : bem) : list charges := if elec then elec_sources f else mag_sources f.
(** every quadrature point is off the axis, and at least [D] away from every point of the axis between [a] and [b] *)
Definition away (a b D : R) (cs : list charges) : Prop :=
  forall c x jp, In c cs -> In x (q_items c) -> In jp (snd x) ->
    vx (snd jp) <> 0 /\ forall s, a <= s <= b -> D <= sqrt ((s - vz (snd jp)) ^ 2 + vx (snd jp) ^ 2).
(** the sum of |charge * Jacobian * radius| over all quadrature points *)
Definition total_strength (cs : list charges) : R :=
  Rsum (map (fun c => Rsum (map (fun x => Rabs (fst x) * Rsum (map (fun jp => Rabs (fst jp) * Rabs (vx (snd jp))) (snd x))) (q_items c))) cs).

Lemma away_sources elec a b D f : away a b D (sources elec f) -> sources_off_axis elec f /\ sources_away elec a b D f.
Proof.
  intros H. assert (G : forall c, In c (sources elec f) -> off_axis c /\ rings_away a b D c).
  { intros c Hc. split.
    - intros x Hx jp Hjp. apply (H c x jp Hc Hx Hjp).
    - intros x Hx jp Hjp s Hs. rewrite <- sqrt_norm_2d. apply (H c x jp Hc Hx Hjp). exact Hs. }
  destruct elec; cbn [sources sources_off_axis sources_away] in *.
  - apply G. left. reflexivity.
  - destruct (G (b_mag f)) as [? ?]; [left; reflexivity|]. destruct (G (b_cur f)) as [? ?]; [right; left; reflexivity|]. auto.
Qed.
Lemma strength_total elec f : strength elec f = total_strength (sources elec f).
Proof. destruct elec; unfold strength, total_strength, sources, elec_sources, mag_sources, weight; cbn [map Rsum fold_right]; ring. Qed.
Lemma chain_0 elec f s : sources_off_axis elec f -> axial_chain elec f 0 s = true_axial_potential elec f s.
Proof.
  destruct elec; cbn [sources_off_axis axial_chain true_axial_potential].
  - intros Ho. unfold elec_chain, axial_electric_potential. apply evaluate_ext. intros x Hx jp Hjp. symmetry. apply ring_0. apply (Ho x Hx jp Hjp).
  - intros [Hm Hc]. unfold mag_chain, axial_magnetic_potential. f_equal; apply evaluate_ext; intros x Hx jp Hjp; symmetry; [apply ring_0; apply (Hm x Hx jp Hjp)|apply current_0].
Qed.
Lemma chain_n elec f n s : sources_off_axis elec f -> is_derive_n (true_axial_potential elec f) n s (axial_chain elec f n s).
Proof. intros Ho. apply (chain_is_derive_n (axial_chain elec f)); [apply axial_chain_derive; exact Ho|]. intros x. symmetry. apply chain_0. exact Ho. Qed.

(** For every spline routine, every radial field, every range and every number of samples N >= 2 the field is built, and: *)
Theorem C78_built spline f zmin zmax N : b_class f = FieldRadialBEM -> zmin < zmax -> (2 <= number_of_samples f N)%nat ->
  exists A, field_radial_axial spline f zmin zmax N = Ok A /\ length (a_z A) = number_of_samples f N /\
    forall i, (i < number_of_samples f N)%nat -> nth_error (a_z A) i = Some (zmin + INR i * ((zmax - zmin) / INR (number_of_samples f N - 1))).
Proof.
  intros Hc Hz HN. destruct (constructor_ok spline f zmin zmax N Hc Hz HN) as (A & E & Ez & _). exists A. split; [exact E|]. rewrite Ez. split; [apply samples_length|].
  intros i Hi. apply samples_nth_error. exact Hi.
Qed.
Print Assumptions C78_built.
(** With an explicit number of samples: that many, equally spaced from zmin to zmax. *)
Theorem C78_given spline f zmin zmax n : b_class f = FieldRadialBEM -> zmin < zmax -> (2 <= n)%nat ->
  exists A, field_radial_axial spline f zmin zmax (Some n) = Ok A /\ length (a_z A) = n /\ nth_error (a_z A) 0 = Some zmin /\ nth_error (a_z A) (n - 1) = Some zmax /\
    forall i x y, nth_error (a_z A) i = Some x -> nth_error (a_z A) (S i) = Some y -> y - x = (zmax - zmin) / INR (n - 1).
Proof.
  intros Hc Hz Hn. destruct (C78_built spline f zmin zmax (Some n) Hc Hz Hn) as (A & E & El & Ei). exists A. cbn [number_of_samples] in *.
  assert (P : 0 < INR (n - 1)) by (apply lt_0_INR; lia). split; [exact E|]. split; [exact El|]. split; [|split].
  - rewrite Ei by lia. f_equal. cbn [INR]. ring.
  - rewrite Ei by lia. f_equal. field. lra.
  - intros i x y Hx Hy. assert (S i < n)%nat by (rewrite <- El; apply nth_error_Some; rewrite Hy; discriminate). rewrite Ei in Hx, Hy by lia. rewrite S_INR in Hy. set (k := (zmax - zmin) / INR (n - 1)) in *. injection Hx as <-. injection Hy as <-. ring.
Qed.
Print Assumptions C78_given.
(** at every sample but the last one, the potential and the field on the axis are exactly those of the rings; *)
Theorem C78_samples elec spline f zmin zmax N A i : b_class f = FieldRadialBEM -> zmin < zmax -> (2 <= number_of_samples f N)%nat ->
  field_radial_axial spline f zmin zmax N = Ok A -> (forall c, In c (sources elec f) -> off_axis c) -> (S i < number_of_samples f N)%nat ->
  let z := zmin + INR i * ((zmax - zmin) / INR (number_of_samples f N - 1)) in
  axial_potential elec A (V3 0 0 z) = Ok (true_axial_potential elec f z) /\
  exists e, axial_field elec A (V3 0 0 z) = Ok (V3 0 0 (- e)) /\ is_derive (true_axial_potential elec f) z e.
Proof.
  intros Hc Hab HN HA Ho Hi z. assert (Ho' : sources_off_axis elec f).
  { destruct elec; cbn [sources_off_axis sources] in *; [apply Ho; left; reflexivity|split; apply Ho; [left|right; left]; reflexivity]. }
  pose proof (range_step_pos zmin zmax _ Hab HN) as Hh. pose proof (range_step_total zmin zmax _ HN) as Tot. fold (range_step zmin zmax (number_of_samples f N)) in z.
  assert (Hz : zmin <= z < zmax).
  { unfold z. pose proof (pos_INR i). assert (INR i + 1 <= INR (number_of_samples f N - 1)) by (rewrite <- S_INR; apply le_INR; lia). split; nra. }
  destruct (axial_inside spline f zmin zmax N A elec z Hc Hab HN HA Hz) as (j & row & Hj & Hcell & Ed & Ends). set (h := range_step zmin zmax (number_of_samples f N)) in *.
  assert (i = j).
  { unfold z in Hcell. assert (L1 : INR i < INR j + 1) by (apply (Rmult_lt_reg_r h); [exact Hh|]; lra). assert (L2 : INR j <= INR i) by (apply (Rmult_le_reg_r h); [exact Hh|]; lra).
    rewrite <- S_INR in L1. apply INR_lt in L1. apply INR_le in L2. lia. }
  subst i. unfold axial_potential, axial_field, potential_radial_derivs, field_radial_derivs. fold (axial_table elec A). cbn [vx vy vz].
  rewrite Ed. cbn [bind]. rewrite potential_series_axis, field_series_axis. cbv beta. replace (z - (zmin + INR j * h)) with 0 by (unfold z; ring).
  destruct (Ends 0%nat ltac:(lia)) as (E0 & _). destruct (Ends 1%nat ltac:(lia)) as (E1 & _). fold z in E0, E1. rewrite E0, E1, chain_0 by exact Ho'. split; [reflexivity|].
  eexists. split; [reflexivity|]. apply (chain_n elec f 1 z Ho').
Qed.
Print Assumptions C78_samples.
(** between the samples, when all rings and loops are at least [D] away from this part of the axis, they differ from those of the
    rings at most by (h/2D)^6 times S/2D and 7S/2D^2: h is the distance of the samples and S the sum of |charge * Jacobian * radius|. *)
Theorem C78_accuracy elec spline f zmin zmax N A z D : b_class f = FieldRadialBEM -> zmin < zmax -> (2 <= number_of_samples f N)%nat ->
  field_radial_axial spline f zmin zmax N = Ok A -> zmin <= z < zmax -> 0 < D -> away zmin zmax D (sources elec f) ->
  let h := (zmax - zmin) / INR (number_of_samples f N - 1) in let S := total_strength (sources elec f) in
  exists v e e', axial_potential elec A (V3 0 0 z) = Ok v /\ axial_field elec A (V3 0 0 z) = Ok (V3 0 0 (- e)) /\
    is_derive (true_axial_potential elec f) z e' /\
    Rabs (v - true_axial_potential elec f z) <= S / (2 * D) * (h / (2 * D)) ^ 6 /\
    Rabs (e - e') <= 7 * S / (2 * D ^ 2) * (h / (2 * D)) ^ 6.
Proof.
  intros Hc Hab HN HA Hz HD Haw h S. destruct (away_sources elec zmin zmax D f Haw) as [Ho Ha].
  destruct (axial_accuracy spline f zmin zmax N A elec z D Hc Hab HN HA Hz Ho HD Ha) as (d & Ed & Err & _). fold h in Err.
  exists (d 0%nat), (d 1%nat), (axial_chain elec f 1 z).
  unfold axial_potential, axial_field, potential_radial_derivs, field_radial_derivs. fold (axial_table elec A). cbn [vx vy vz].
  rewrite Ed. cbn [bind]. rewrite potential_series_axis, field_series_axis. split; [reflexivity|]. split; [reflexivity|]. split; [apply (chain_n elec f 1 z Ho)|].
  rewrite <- (chain_0 elec f z Ho). pose proof (Err 0%nat ltac:(lia)) as E0. pose proof (Err 1%nat ltac:(lia)) as E1. unfold interpolation_error in E0, E1.
  rewrite strength_total in E0, E1. fold h S in E0, E1.
  assert (F6 : INR (fact (0 + 6)) = 720) by (rewrite INR_IZR_INZ; apply f_equal; reflexivity).
  assert (F7 : INR (fact (1 + 6)) = 5040) by (rewrite INR_IZR_INZ; apply f_equal; reflexivity). rewrite F6 in E0. rewrite F7 in E1. cbn [Nat.add] in E0, E1. change (range_step zmin zmax (number_of_samples f N)) with h in E0, E1. clearbody h S.
  split; (eapply Rle_trans; [eassumption|]); right; field; lra.
Qed.
Print Assumptions C78_accuracy.

(** ** C79 The default number of samples *)
(** The default number of samples is a fifth of the number of charges; fields made by currents alone have no
    charges.  With fewer than ten charges no field is built. *)
Theorem C79_default_refuted spline f zmin zmax : b_class f = FieldRadialBEM -> zmin < zmax ->
  (length (q_items (b_elec f)) < 5)%nat -> (length (q_items (b_mag f)) < 5)%nat -> field_radial_axial spline f zmin zmax None = Err ValueError.
Proof.
  intros Hc Hz He Hm. unfold field_radial_axial. rewrite Hc. cbn [py_assert bind]. destruct (Rlt_dec zmin zmax) as [_|B]; [|contradiction]. cbn [py_assert bind].
  replace (number_of_samples f None) with 0%nat; [reflexivity|]. unfold number_of_samples, default_samples. symmetry. apply Nat.div_small. lia.
Qed.
Print Assumptions C79_default_refuted.
Theorem C79_default_partial spline f zmin zmax : b_class f = FieldRadialBEM -> zmin < zmax ->
  ((exists A, field_radial_axial spline f zmin zmax None = Ok A) <-> (10 <= length (q_items (b_elec f)) \/ 10 <= length (q_items (b_mag f)))%nat).
Proof.
  intros Hc Hz. set (m := Nat.max (length (q_items (b_elec f))) (length (q_items (b_mag f)))).
  assert (En : number_of_samples f None = (m / 5)%nat) by reflexivity. split.
  - intros (A & HA). destruct (le_lt_dec 10 m) as [L|L]; [unfold m in L; lia|]. exfalso.
    unfold field_radial_axial in HA. rewrite Hc in HA. cbn [py_assert bind] in HA. destruct (Rlt_dec zmin zmax) as [_|B]; [|contradiction]. cbn [py_assert bind] in HA. rewrite En in HA.
    assert (m / 5 < 2)%nat by (apply Nat.div_lt_upper_bound; lia). destruct (m / 5)%nat as [|[|k]]; [discriminate|discriminate|lia].
  - intros H. assert (L : (2 <= m / 5)%nat) by (apply Nat.div_le_lower_bound; unfold m; lia). destruct (C78_built spline f zmin zmax None Hc Hz) as (A & E & _); [rewrite En; exact L|]. eauto.
Qed.
Print Assumptions C79_default_partial.

Definition ex_ring_field : bem := radial_bem (mkcharges LINE_RULE [(3, [(1, V3 2 0 0); (2, V3 2 0 (1/2))])]) empty_2d (mkcharges TRIANGLE_RULE [(1, [(1, V3 3 0 0)])]).
Example C78_nonvacuous spline : exists A, field_radial_axial spline ex_ring_field (-1) 1 (Some 21%nat) = Ok A /\
  away (-1) 1 2 (sources true ex_ring_field) /\ away (-1) 1 2 (sources false ex_ring_field) /\ total_strength (sources true ex_ring_field) = 18 /\
  field_radial_axial spline ex_ring_field (-1) 1 None = Err ValueError.
Proof.
  destruct (C78_built spline ex_ring_field (-1) 1 (Some 21%nat) eq_refl ltac:(lra) ltac:(cbn; lia)) as (A & E & _). exists A. split; [exact E|].
  assert (Q : forall s z r, 2 <= r -> 2 <= sqrt ((s - z) ^ 2 + r ^ 2)).
  { intros s z r Hr. rewrite <- (sqrt_Rsqr 2) by lra. apply sqrt_le_1_alt. pose proof (pow2_ge_0 (s - z)). unfold Rsqr. nra. }
  split; [|split; [|split]].
  - intros c x jp [<-|[]] [<-|[]] [<-|[<-|[]]]; cbn [vx vz snd]; (split; [lra|intros s _; apply Q; lra]).
  - intros c x jp [<-|[<-|[]]]; [intros []|]. intros [<-|[]] [<-|[]]; cbn [vx vz snd]; (split; [lra|intros s _; apply Q; lra]).
  - unfold total_strength, sources, elec_sources. cbn. rewrite !(Rabs_pos_eq) by lra. ring.
  - apply C79_default_refuted; cbn; try lra; try lia; reflexivity.
Qed.
