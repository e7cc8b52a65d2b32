(** C86: traces through radially symmetric fields end. *)
From Coq Require Import Reals Lra Lia Psatz.
From Coquelicot Require Import Coquelicot.
From Verif Require Import Base BaseFacts Vec GeomModel OutwardFacts FieldModel FieldFacts TracingModel TracingFacts AxialErrorFacts ProgressSpec BemSmooth InterpFacts AxialBound ConvSpec ConvStep ProgressFacts ProgressLoop SeriesFacts RadialSmooth RadialBound Props_Progress.
Local Open Scope R_scope.

(** The bounds with a margin [m] are at least [delta] away from all rings.  Then the forces on the electron are at most [Emax] (electric) and
    [Hmax] (magnetic field strength) whatever its start, and if they are small against its energy the tracer returns. *)
Theorem C86_radial f bounds m delta : b_class f = FieldRadialBEM -> 0 < delta ->
  (forall p q, within bounds p = true -> norm (vsub q p) <= m -> clear_of_rings delta (b_elec f) q /\ clear_of_rings delta (b_mag f) q /\ clear_of_rings delta (b_cur f) q) ->
  exists Emax Hmax, 0 <= Emax /\ 0 <= Hmax /\ forall x v w n L atol, 0 < atol -> 0 <= L -> norm n <= 1 -> convert_velocity_to_SI v = Ok w -> 0 < dot n w -> 0.64 * (norm w / dot n w) <= m ->
    extent bounds n x L -> (8 * L + 2) * (Rabs EM * (Emax + 2 * norm w * (MU_0 * Hmax))) <= dot n w * dot n w ->
    exists K, forall fuel inner, (K <= fuel)%nat -> (K <= inner)%nat -> exists samples, tracer_call fuel inner f bounds atol x v = Ok samples.
Proof.
  intros C Hd Clear. set (big := fun v => Rabs (vx v) + Rabs (vy v) + Rabs (vz v)). set (X := Rabs m + big (b_lo bounds) + big (b_hi bounds)).
  assert (BX : forall p q, within bounds p = true -> norm (vsub q p) <= m -> coords_at_most X q).
  { intros p q W Hm. destruct (within_range _ _ W) as (Wx & Wy & Wz). pose proof (max_abs_norm (vsub q p)) as Q. pose proof (Rle_abs m) as Mm.
    assert (G : forall a b lo hi Lo Hi, Rabs (a - b) <= m -> lo <= b <= hi -> Rabs lo <= Lo -> Rabs hi <= Hi -> Rabs a <= Rabs m + Lo + Hi).
    { intros a b lo hi Lo Hi A B L1 L2. apply Rabs_le_between in A. apply Rabs_le_between in L1, L2. pose proof (Rabs_pos lo). apply Rabs_le_between. lra. }
    unfold max_abs in Q. cbn [vx vy vz vsub] in Q. pose proof (Rmax_l (Rmax (Rabs (vx q - vx p)) (Rabs (vy q - vy p))) (Rabs (vz q - vz p))). pose proof (Rmax_r (Rmax (Rabs (vx q - vx p)) (Rabs (vy q - vy p))) (Rabs (vz q - vz p))).
    pose proof (Rmax_l (Rabs (vx q - vx p)) (Rabs (vy q - vy p))). pose proof (Rmax_r (Rabs (vx q - vx p)) (Rabs (vy q - vy p))).
    assert (Bg : forall v, Rabs (vx v) <= big v /\ Rabs (vy v) <= big v /\ Rabs (vz v) <= big v) by (intros v; unfold big; pose proof (Rabs_pos (vx v)); pose proof (Rabs_pos (vy v)); pose proof (Rabs_pos (vz v)); lra).
    destruct (Bg (b_lo bounds)) as (L1 & L2 & L3). destruct (Bg (b_hi bounds)) as (U1 & U2 & U3). unfold X.
    split; [|split]; [apply (G _ _ _ _ _ _ (Rle_trans _ _ _ (Rle_trans _ _ _ (Rle_trans _ _ _ H1 H) Q) Hm) Wx L1 U1)|apply (G _ _ _ _ _ _ (Rle_trans _ _ _ (Rle_trans _ _ _ (Rle_trans _ _ _ H2 H) Q) Hm) Wy L2 U2)|apply (G _ _ _ _ _ _ (Rle_trans _ _ _ (Rle_trans _ _ _ H0 Q) Hm) Wz L3 U3)]. }
  set (Emax := Rabs (field_max X delta (b_elec f))). set (Hmax := Rabs (field_max X delta (b_mag f)) + Rabs (coil_max X delta (b_cur f))).
  assert (E0 : 0 <= Emax) by apply Rabs_pos. assert (H0 : 0 <= Hmax) by (unfold Hmax; pose proof (Rabs_pos (field_max X delta (b_mag f))); pose proof (Rabs_pos (coil_max X delta (b_cur f))); lra).
  exists Emax, Hmax. split; [exact E0|]. split; [exact H0|]. intros x v w n L atol Ha HL Hn Hv Hw Hm Ext Small.
  assert (M : 0 < MU_0) by (unfold MU_0; lra). pose proof (norm_nonneg w) as Nw. assert (F0 : 0 <= Emax + 2 * norm w * (MU_0 * Hmax)) by (apply Rplus_le_le_0_compat; [exact E0|]; apply Rmult_le_pos; [lra|]; apply Rmult_le_pos; lra).
  destruct (C86_ends (tracer_field f) bounds x w n _ L atol Ha F0 HL Hn Hw Ext) as (K & HK).
  - intros p s W Hs Hvel. assert (Hs' : norm (vsub (s_pos s) p) <= m) by lra. destruct (Clear p (s_pos s) W Hs') as (Ce & Cm & Cc). pose proof (BX p (s_pos s) W Hs') as B.
    unfold tracer_field. rewrite C. unfold field_radial_traceable. eexists. split; [reflexivity|].
    match goal with |- norm (if ?b then _ else _) <= _ => destruct b end.
    + pose proof (lorentz_bound (s_vel s) (field_radial (s_pos s) (b_elec f)) (vadd (field_radial (s_pos s) (b_mag f)) (current_field (s_pos s) (b_cur f))) Emax Hmax (2 * norm w)) as Q.
      replace (combine_elec_magnetic_field (s_vel s) (field_radial (s_pos s) (b_elec f)) (field_radial (s_pos s) (b_mag f)) (current_field (s_pos s) (b_cur f)))
        with (combine_elec_magnetic_field (s_vel s) (field_radial (s_pos s) (b_elec f)) (vadd (field_radial (s_pos s) (b_mag f)) (current_field (s_pos s) (b_cur f))) vzero).
      * apply Q; [| |exact Hvel].
        -- eapply Rle_trans; [apply (field_radial_bound X delta Hd _ B); exact Ce|apply Rle_abs].
        -- unfold Hmax. eapply Rle_trans; [apply norm_triangle|]. apply Rplus_le_compat; [eapply Rle_trans; [apply (field_radial_bound X delta Hd _ B); exact Cm|apply Rle_abs]|eapply Rle_trans; [apply (coil_bound X delta Hd _ B); exact Cc|apply Rle_abs]].
      * unfold combine_elec_magnetic_field. cbv zeta. do 3 f_equal. apply vec_eq; cbn; ring.
    + replace (norm vzero) with 0; [exact F0|]. symmetry. apply norm_unique; [lra|unfold dot; cbn; ring].
  - exact Small.
  - exists K. intros fuel inner Hf Hi. unfold tracer_call. rewrite Hv. cbn [bind]. unfold trace_particle_wrapper.
    destruct (HK fuel inner TRACING_BLOCK_SIZE Hf Hi) as (samples' & E & _); [unfold TRACING_BLOCK_SIZE; change 2%nat with (Z.to_nat 2); apply Z2Nat.inj_le; lia|]. exists samples'. exact E.
Qed.
Print Assumptions C86_radial.

(** The hypotheses are met: a ring of radius ten around a box of length two. *)
Definition lens : bem := mkbem FieldRadialBEM (mkcharges LINE_RULE [(3, [(1, V3 10 0 0); (2, V3 10 0 1)])]) empty_2d empty_2d None.
Example C86_radial_nonvacuous p q : within unit_box p = true -> norm (vsub q p) <= 1 ->
  clear_of_rings 1 (b_elec lens) q /\ clear_of_rings 1 (b_mag lens) q /\ clear_of_rings 1 (b_cur lens) q.
Proof.
  intros W Hm. destruct (within_range _ _ W) as (Wx & Wy & _). cbn in Wx, Wy. pose proof (max_abs_norm (vsub q p)) as Q. unfold max_abs in Q. cbn [vx vy vz vsub] in Q.
  pose proof (Rmax_l (Rmax (Rabs (vx q - vx p)) (Rabs (vy q - vy p))) (Rabs (vz q - vz p))). pose proof (Rmax_l (Rabs (vx q - vx p)) (Rabs (vy q - vy p))). pose proof (Rmax_r (Rabs (vx q - vx p)) (Rabs (vy q - vy p))).
  assert (A : Rabs (vx q - vx p) <= 1) by lra. assert (B : Rabs (vy q - vy p) <= 1) by lra. apply Rabs_le_between in A, B.
  assert (N : 0 <= norm_2d (vx q) (vy q) <= 2 * 2) by (apply norm_2d_le; apply Rabs_le_between; lra).
  assert (G : forall b, 1 <= norm_2d (10 - norm_2d (vx q) (vy q)) b).
  { intros b. eapply Rle_trans; [|exact (proj1 (norm_2d_ge _ _))]. rewrite Rabs_pos_eq; lra. }
  split; [|split; intros x jp []]. intros x jp [<-|[]] [<-|[<-|[]]]; cbn [snd vx vz]; (split; [lra|apply G]).
Qed.
