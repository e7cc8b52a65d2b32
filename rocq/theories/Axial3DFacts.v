(** The three-dimensional series around the axis: polynomial form and gradient. *)
From Coq Require Import Reals ZArith Lra Lia Psatz.
From Coquelicot Require Import Coquelicot.
From Verif Require Import Base BaseFacts Vec GeomModel PathModel PathOpsFacts OutwardFacts FieldModel FieldFacts SeriesModel SeriesFacts InterpFacts Field3DFacts Axial3DModel.
Local Open Scope R_scope.

(** ** Harmonic polynomials: real and imaginary part of (x + i y)^m *)
Fixpoint harmonic (m : nat) (x y : R) : R * R :=
  match m with
  | O => (1, 0)
  | S k => let '(c, s) := harmonic k x y in (x * c - y * s, x * s + y * c)
  end.
Definition hc m x y := fst (harmonic m x y).
Definition hs m x y := snd (harmonic m x y).
Lemma hc_S m x y : hc (S m) x y = x * hc m x y - y * hs m x y.
Proof. unfold hc, hs. cbn. destruct (harmonic m x y). reflexivity. Qed.
Lemma hs_S m x y : hs (S m) x y = x * hs m x y + y * hc m x y.
Proof. unfold hc, hs. cbn. destruct (harmonic m x y). reflexivity. Qed.
Lemma harmonic_polar m r t : hc m (r * cos t) (r * sin t) = r ^ m * cos (INR m * t) /\ hs m (r * cos t) (r * sin t) = r ^ m * sin (INR m * t).
Proof.
  induction m as [|m [IHc IHs]].
  - unfold hc, hs. cbn. rewrite Rmult_0_l, cos_0, sin_0. split; ring.
  - rewrite hc_S, hs_S, IHc, IHs. replace (INR (S m) * t) with (t + INR m * t) by (rewrite S_INR; ring). rewrite cos_plus, sin_plus. cbn. split; ring.
Qed.
Lemma harmonic_atan2 m x y : norm_2d x y ^ m * cos (INR m * atan2 y x) = hc m x y /\ norm_2d x y ^ m * sin (INR m * atan2 y x) = hs m x y.
Proof.
  destruct (atan2_polar x y) as [Hx Hy]. fold (norm_2d x y) in Hx, Hy. destruct (harmonic_polar m (norm_2d x y) (atan2 y x)) as [C S].
  rewrite Hx, Hy in C, S. split; congruence.
Qed.
(** [pred]-indexed derivative along the line (x + t a, y + t b) *)
Lemma harmonic_derive m a b x y (t : R) :
  is_derive (fun t => hc m (x + t * a) (y + t * b)) t (INR m * (a * hc (m - 1) (x + t * a) (y + t * b) - b * hs (m - 1) (x + t * a) (y + t * b))) /\
  is_derive (fun t => hs m (x + t * a) (y + t * b)) t (INR m * (a * hs (m - 1) (x + t * a) (y + t * b) + b * hc (m - 1) (x + t * a) (y + t * b))).
Proof.
  induction m as [|m [IHc IHs]].
  - cbn [INR]. rewrite !Rmult_0_l. split; [apply (is_derive_const (V := R_NormedModule) 1)|apply (is_derive_const (V := R_NormedModule) 0)].
  - assert (Lx : is_derive (fun t => x + t * a) t a) by (auto_derive; [exact I|ring]).
    assert (Ly : is_derive (fun t => y + t * b) t b) by (auto_derive; [exact I|ring]).
    set (X := x + t * a) in *. set (Y := y + t * b) in *.
    assert (P : INR m * hc m X Y = INR m * (X * hc (m - 1) X Y - Y * hs (m - 1) X Y) /\ INR m * hs m X Y = INR m * (X * hs (m - 1) X Y + Y * hc (m - 1) X Y)).
    { destruct m as [|k]; [cbn; split; ring|]. replace (S k - 1)%nat with k by lia. rewrite hc_S, hs_S. split; reflexivity. }
    destruct P as [Pc Ps]. replace (S m - 1)%nat with m by lia. rewrite S_INR. split.
    + eapply is_derive_ext; [intros u; symmetry; apply hc_S|]. eapply is_derive_eq.
      * apply (is_derive_minus (fun u => (x + u * a) * hc m (x + u * a) (y + u * b)) (fun u => (y + u * b) * hs m (x + u * a) (y + u * b))).
        -- apply (is_derive_mult (fun u => x + u * a) (fun u => hc m (x + u * a) (y + u * b)) t); [exact Lx|exact IHc|intros; apply Rmult_comm].
        -- apply (is_derive_mult (fun u => y + u * b) (fun u => hs m (x + u * a) (y + u * b)) t); [exact Ly|exact IHs|intros; apply Rmult_comm].
      * fold X Y. unfold minus, plus, opp, mult. cbn. fold X Y.
        transitivity (a * hc m X Y - b * hs m X Y + (a * (INR m * (X * hc (m - 1) X Y - Y * hs (m - 1) X Y)) - b * (INR m * (X * hs (m - 1) X Y + Y * hc (m - 1) X Y)))); [ring|]. rewrite <- Pc, <- Ps. ring.
    + eapply is_derive_ext; [intros u; symmetry; apply hs_S|]. eapply is_derive_eq.
      * apply (is_derive_plus (fun u => (x + u * a) * hs m (x + u * a) (y + u * b)) (fun u => (y + u * b) * hc m (x + u * a) (y + u * b))).
        -- apply (is_derive_mult (fun u => x + u * a) (fun u => hs m (x + u * a) (y + u * b)) t); [exact Lx|exact IHs|intros; apply Rmult_comm].
        -- apply (is_derive_mult (fun u => y + u * b) (fun u => hc m (x + u * a) (y + u * b)) t); [exact Ly|exact IHc|intros; apply Rmult_comm].
      * unfold plus, mult. cbn. fold X Y.
        transitivity (a * hs m X Y + b * hc m X Y + (a * (INR m * (X * hs (m - 1) X Y + Y * hc (m - 1) X Y)) + b * (INR m * (X * hc (m - 1) X Y - Y * hs (m - 1) X Y)))); [ring|]. rewrite <- Pc, <- Ps. ring.
Qed.

(** ** Terms of the series *)
Definition poly_term (A B : R) (nu m : nat) (x y : R) : R := (A * hc m x y + B * hs m x y) * (x ^ 2 + y ^ 2) ^ nu.
Lemma potential3d_term_poly A B x y nu m : potential3d_term A B (norm_2d x y) (atan2 y x) nu m = poly_term (A nu m) (B nu m) nu m x y.
Proof.
  unfold potential3d_term, poly_term. destruct (harmonic_atan2 m x y) as [C S]. rewrite pow_add, norm_pow2, <- C, <- S. ring.
Qed.
(** derivative of a term along the direction (a, b), with coefficients moving at the rates A', B' *)
Definition term_slope (A B : R) (nu m : nat) (x y a b : R) : R :=
  INR m * (A * (a * hc (m - 1) x y - b * hs (m - 1) x y) + B * (a * hs (m - 1) x y + b * hc (m - 1) x y)) * (x ^ 2 + y ^ 2) ^ nu +
  (A * hc m x y + B * hs m x y) * (INR nu * (x ^ 2 + y ^ 2) ^ (nu - 1) * (2 * x * a + 2 * y * b)).
Lemma poly_term_derive (A B : R -> R) A' B' nu m a b x y (t : R) : is_derive A t A' -> is_derive B t B' ->
  let X := x + t * a in let Y := y + t * b in
  is_derive (fun u => poly_term (A u) (B u) nu m (x + u * a) (y + u * b)) t (poly_term A' B' nu m X Y + term_slope (A t) (B t) nu m X Y a b).
Proof.
  intros HA HB X Y. destruct (harmonic_derive m a b x y t) as [HC HS]. fold X Y in HC, HS. unfold poly_term.
  assert (HR : is_derive (fun u => ((x + u * a) ^ 2 + (y + u * b) ^ 2) ^ nu) t (INR nu * (X ^ 2 + Y ^ 2) ^ (nu - 1) * (2 * X * a + 2 * Y * b))).
  { eapply is_derive_eq; [apply (is_derive_pow (fun u => (x + u * a) ^ 2 + (y + u * b) ^ 2) nu t (2 * X * a + 2 * Y * b))|].
    - unfold X, Y. auto_derive; [exact I|ring].
    - fold X Y. replace (Init.Nat.pred nu) with (nu - 1)%nat by lia. ring. }
  eapply is_derive_eq.
  - apply (is_derive_mult (fun u => A u * hc m (x + u * a) (y + u * b) + B u * hs m (x + u * a) (y + u * b)) (fun u => ((x + u * a) ^ 2 + (y + u * b) ^ 2) ^ nu) t); [|exact HR|intros; apply Rmult_comm].
    apply (is_derive_plus (fun u => A u * hc m (x + u * a) (y + u * b)) (fun u => B u * hs m (x + u * a) (y + u * b))).
    + apply (is_derive_mult A (fun u => hc m (x + u * a) (y + u * b)) t); [exact HA|exact HC|intros; apply Rmult_comm].
    + apply (is_derive_mult B (fun u => hs m (x + u * a) (y + u * b)) t); [exact HB|exact HS|intros; apply Rmult_comm].
  - unfold plus, mult. cbn -[pow]. fold X Y. unfold term_slope. ring.
Qed.
(** the terms of the field, away from the axis *)
Lemma field3d_term_slope A B x y nu m : 0 < norm_2d x y ->
  fst (field3d_term A B (norm_2d x y) (atan2 y x) x y nu m) = term_slope (A nu m) (B nu m) nu m x y 1 0 /\
  snd (field3d_term A B (norm_2d x y) (atan2 y x) x y nu m) = term_slope (A nu m) (B nu m) nu m x y 0 1.
Proof.
  intros Hr. set (r := norm_2d x y) in *. unfold field3d_term. cbn [fst snd].
  pose proof (norm_2d_sqr x y) as R2. fold r in R2.
  destruct (harmonic_atan2 m x y) as [HC HS]. fold r in HC, HS. set (cm := cos (INR m * atan2 y x)) in *. set (sm := sin (INR m * atan2 y x)) in *.
  assert (N : r <> 0) by lra.
  assert (E1 : INR (2 * nu + m) * r ^ (2 * nu + m - 1) = INR (2 * nu + m) * (r ^ m * (r ^ 2) ^ nu) / r).
  { destruct (2 * nu + m)%nat as [|k] eqn:E; [cbn; field; exact N|]. rewrite <- pow_mult, <- pow_add. replace (m + 2 * nu)%nat with (S k) by lia. replace (S k - 1)%nat with k by lia. cbn. field. exact N. }
  assert (E2 : r ^ (2 * nu + m) = r ^ m * (r ^ 2) ^ nu) by (rewrite <- pow_mult, <- pow_add; f_equal; lia).
  assert (Q : INR nu * (x ^ 2 + y ^ 2) ^ (nu - 1) = INR nu * (r ^ 2) ^ nu / r ^ 2).
  { rewrite <- R2. destruct nu as [|k]; [cbn; field; exact N|]. replace (S k - 1)%nat with k by lia. change ((r ^ 2) ^ S k) with (r ^ 2 * (r ^ 2) ^ k). field. exact N. }
  assert (P : INR m * r ^ 2 * hc (m - 1) x y = INR m * (x * hc m x y + y * hs m x y) /\ INR m * r ^ 2 * hs (m - 1) x y = INR m * (x * hs m x y - y * hc m x y)).
  { destruct m as [|k]; [cbn; split; ring|]. replace (S k - 1)%nat with k by lia. rewrite hc_S, hs_S, R2. split; ring. }
  assert (Pc : INR m * hc (m - 1) x y = INR m * (x * hc m x y + y * hs m x y) / r ^ 2) by (destruct P as [P _]; rewrite <- P; field; exact N).
  assert (Ps : INR m * hs (m - 1) x y = INR m * (x * hs m x y - y * hc m x y) / r ^ 2) by (destruct P as [_ P]; rewrite <- P; field; exact N).
  assert (F : forall u v w, (u * cm + v * sm) * INR (2 * nu + m) * r ^ (2 * nu + m - 1) * w / r = INR (2 * nu + m) * (u * hc m x y + v * hs m x y) * (r ^ 2) ^ nu * w / r ^ 2).
  { intros u v w. rewrite <- HC, <- HS. transitivity ((u * cm + v * sm) * (INR (2 * nu + m) * r ^ (2 * nu + m - 1)) * w / r); [field; exact N|]. rewrite E1. field. exact N. }
  assert (G : forall u v w, INR m * (u * sm + v * cm) * r ^ (2 * nu + m) * w / r ^ 2 = INR m * (u * hs m x y + v * hc m x y) * (r ^ 2) ^ nu * w / r ^ 2).
  { intros u v w. rewrite <- HC, <- HS, E2. field. exact N. }
  rewrite !F, !G. unfold term_slope. rewrite Q, <- R2. rewrite plus_INR, mult_INR. cbn [INR]. set (rho := (r ^ 2) ^ nu).
  split.
  - transitivity ((A nu m * (INR m * hc (m - 1) x y) + B nu m * (INR m * hs (m - 1) x y)) * rho + (A nu m * hc m x y + B nu m * hs m x y) * (INR nu * rho / r ^ 2 * (2 * x * 1 + 2 * y * 0))).
    + rewrite Pc, Ps. field. exact N.
    + ring.
  - transitivity ((- A nu m * (INR m * hs (m - 1) x y) + B nu m * (INR m * hc (m - 1) x y)) * rho + (A nu m * hc m x y + B nu m * hs m x y) * (INR nu * rho / r ^ 2 * (2 * x * 0 + 2 * y * 1))).
    + rewrite Pc, Ps. field. exact N.
    + ring.
Qed.
Lemma term_slope_linear A B nu m x y a b : term_slope A B nu m x y a b = term_slope A B nu m x y 1 0 * a + term_slope A B nu m x y 0 1 * b.
Proof. unfold term_slope. ring. Qed.

(** ** Sums *)
Lemma sum_nu_m_ext f g : (forall nu m, f nu m = g nu m) -> sum_nu_m f = sum_nu_m g.
Proof. intros H. unfold sum_nu_m. apply Rsum_ext. intros nu _. apply Rsum_ext. intros m _. apply H. Qed.
Lemma sum_nu_m_plus f g : sum_nu_m (fun nu m => f nu m + g nu m) = sum_nu_m f + sum_nu_m g.
Proof. unfold sum_nu_m. rewrite <- Rsum_plus. apply Rsum_ext. intros nu _. apply Rsum_plus. Qed.
Lemma sum_nu_m_scal k f : sum_nu_m (fun nu m => k * f nu m) = k * sum_nu_m f.
Proof. unfold sum_nu_m. rewrite <- Rsum_scal. apply Rsum_ext. intros nu _. apply Rsum_scal. Qed.
Lemma sum_nu_m_derive (f : nat -> nat -> R -> R) f' (t : R) : (forall nu m, is_derive (f nu m) t (f' nu m)) ->
  is_derive (fun u => sum_nu_m (fun nu m => f nu m u)) t (sum_nu_m f').
Proof.
  intros H. unfold sum_nu_m. apply (Rsum_derive (fun nu u => Rsum (map (fun m => f nu m u) (arange M_MAX))) (fun nu => Rsum (map (f' nu) (arange M_MAX)))).
  intros nu _. apply (Rsum_derive (fun m u => f nu m u) (f' nu)). intros m _. apply H.
Qed.
Lemma cubic_derive c (z : R) : is_derive (cubic_at c) z (cubic_diff c z).
Proof. destruct c as [[[c0 c1] c2] c3]. unfold cubic_at, cubic_diff. auto_derive; [exact I|ring]. Qed.

(** ** Rows *)
Lemma row3d_outside z0 h N coeff z : (2 <= N)%nat -> z < z0 \/ z0 + INR (N - 1) * h < z -> series3d_row (samples z0 h N) coeff z = Ok None.
Proof.
  intros HN H. unfold series3d_row. rewrite samples_length, !samples_get by lia. cbn [bind]. replace (z0 + INR 0 * h) with z0 by (simpl; ring).
  destruct (Rle_dec z0 z); [|reflexivity]. destruct (Rle_dec z (z0 + INR (N - 1) * h)); [lra|reflexivity].
Qed.
Lemma row3d_inside z0 h N coeff z j : 0 < h -> (S j < N)%nat -> z0 + INR j * h <= z < z0 + (INR j + 1) * h -> length coeff = (N - 1)%nat ->
  exists row, nth_error coeff j = Some row /\ series3d_row (samples z0 h N) coeff z = Ok (Some (row, z - (z0 + INR j * h))).
Proof.
  intros Hh Hj Hz Hl. destruct (nth_error coeff j) as [row|] eqn:E; [|apply nth_error_None in E; lia]. exists row. split; [reflexivity|].
  unfold series3d_row. rewrite samples_length, !samples_get by lia. cbn [bind]. replace (z0 + INR 0 * h) with z0 by (simpl; ring).
  assert (P := pos_INR j). assert (Q0 : 0 <= INR j * h) by (apply Rmult_le_pos; lra).
  assert (Q1 : INR j + 1 <= INR (N - 1)) by (rewrite <- S_INR; apply le_INR; lia). assert (Q2 : (INR j + 1) * h <= INR (N - 1) * h) by (apply Rmult_le_compat_r; lra).
  destruct (Rle_dec z0 z); [|lra]. destruct (Rle_dec z (z0 + INR (N - 1) * h)); [|lra]. try (rewrite samples_get by lia). cbn [bind].
  rewrite (index_cell z0 h N j z Hh) by (lia || exact Hz). rewrite samples_get by lia. cbn [bind]. unfold np_get. rewrite E. reflexivity.
Qed.
Lemma row3d_last z0 h N coeff : 0 < h -> (2 <= N)%nat -> length coeff = (N - 1)%nat ->
  series3d_row (samples z0 h N) coeff (z0 + INR (N - 1) * h) = Err IndexError.
Proof.
  intros Hh HN Hl. unfold series3d_row. rewrite samples_length, !samples_get by lia. cbn [bind]. replace (z0 + INR 0 * h) with z0 by (simpl; ring).
  assert (Q : 0 <= INR (N - 1) * h) by (apply Rmult_le_pos; [apply pos_INR|lra]).
  destruct (Rle_dec z0 _); [|lra]. destruct (Rle_dec _ _); [|lra]. try (rewrite samples_get by lia). cbn [bind].
  rewrite (index_cell z0 h N (N - 1) _ Hh) by (lia || lra). rewrite samples_get by lia. cbn [bind]. unfold np_get.
  destruct (nth_error coeff (N - 1)) eqn:E; [|reflexivity]. exfalso. assert (L : (N - 1 < length coeff)%nat) by (apply nth_error_Some; congruence). lia.
Qed.

(** ** The potential of one row and its gradient *)
Definition row_potential (C : coeff3d_row) (zj : R) (p : vec3) : R :=
  sum_nu_m (fun nu m => poly_term (cubic_at (C false nu m) (vz p - zj)) (cubic_at (C true nu m) (vz p - zj)) nu m (vx p) (vy p)).
Definition row_field (C : coeff3d_row) (zj : R) (p : vec3) : vec3 :=
  let A nu m := cubic_at (C false nu m) (vz p - zj) in let B nu m := cubic_at (C true nu m) (vz p - zj) in
  V3 (- sum_nu_m (fun nu m => term_slope (A nu m) (B nu m) nu m (vx p) (vy p) 1 0))
     (- sum_nu_m (fun nu m => term_slope (A nu m) (B nu m) nu m (vx p) (vy p) 0 1))
     (- sum_nu_m (fun nu m => poly_term (cubic_diff (C false nu m) (vz p - zj)) (cubic_diff (C true nu m) (vz p - zj)) nu m (vx p) (vy p))).
Lemma row_gradient C zj p : gradient (row_potential C zj) p (vneg (row_field C zj p)).
Proof.
  intros d. set (A := fun nu m u => cubic_at (C false nu m) (vz p + u * vz d - zj)). set (B := fun nu m u => cubic_at (C true nu m) (vz p + u * vz d - zj)).
  assert (K : forall c, is_derive (fun u => cubic_at c (vz p + u * vz d - zj)) 0 (vz d * cubic_diff c (vz p - zj))).
  { intros c. assert (L : is_derive (fun u => vz p + u * vz d - zj) 0 (vz d)) by (auto_derive; [exact I|ring]).
    eapply is_derive_eq; [apply (is_derive_comp (cubic_at c) (fun u => vz p + u * vz d - zj) 0); [apply cubic_derive|exact L]|]. unfold scal, mult. cbn. unfold mult. cbn. repeat f_equal. ring. }
  eapply is_derive_ext; [intros t; symmetry; unfold row_potential; cbn [vadd vscale vx vy vz]; reflexivity|].
  eapply is_derive_eq.
  - apply (sum_nu_m_derive (fun nu m u => poly_term (A nu m u) (B nu m u) nu m (vx p + u * vx d) (vy p + u * vy d))).
    intros nu m. apply poly_term_derive; apply K.
  - unfold A, B. unfold vneg, row_field. unfold dot. cbn [vx vy vz]. rewrite !Rmult_0_l, !Rplus_0_r, !Ropp_involutive.
    rewrite (Rmult_comm _ (vx d)), (Rmult_comm _ (vy d)), (Rmult_comm _ (vz d)), <- !sum_nu_m_scal, <- !sum_nu_m_plus. apply sum_nu_m_ext. intros nu m.
    rewrite term_slope_linear. unfold poly_term. ring.
Qed.

(** ** On the axis *)
Lemma harmonic_axis m : hc m 0 0 = (if (m =? 0)%nat then 1 else 0) /\ hs m 0 0 = 0.
Proof. destruct m as [|m]; [split; reflexivity|]. rewrite hc_S, hs_S. cbn. split; ring. Qed.
Lemma poly_term_axis A B nu m : poly_term A B nu m 0 0 = if ((nu =? 0) && (m =? 0))%nat then A else 0.
Proof.
  unfold poly_term. destruct (harmonic_axis m) as [-> ->]. replace (0 ^ 2 + 0 ^ 2) with 0 by ring. destruct nu as [|nu]; cbn [Nat.eqb andb].
  - destruct (m =? 0)%nat; cbn; ring.
  - rewrite pow_ne_zero by lia. ring.
Qed.
Lemma term_slope_axis A B nu m a b : term_slope A B nu m 0 0 a b = if ((nu =? 0) && (m =? 1))%nat then A * a + B * b else 0.
Proof.
  unfold term_slope. destruct (harmonic_axis m) as [-> ->]. destruct (harmonic_axis (m - 1)) as [-> ->]. replace (0 ^ 2 + 0 ^ 2) with 0 by ring. destruct nu as [|nu]; cbn [Nat.eqb andb].
  - destruct m as [|[|m]]; cbn [Nat.eqb Nat.sub INR]; cbn; ring.
  - rewrite (pow_ne_zero (S nu)) by lia. ring.
Qed.
Lemma sum_nu_m_pick f k : (k < M_MAX)%nat -> sum_nu_m (fun nu m => if ((nu =? 0) && (m =? k))%nat then f nu m else 0) = f 0%nat k.
Proof. unfold M_MAX. intros H. do 8 (destruct k as [|k]; [unfold sum_nu_m; cbn; ring|]). lia. Qed.
Lemma row_axis C zj z : row_potential C zj (V3 0 0 z) = cubic_at (C false 0%nat 0%nat) (z - zj) /\
  row_field C zj (V3 0 0 z) = V3 (- cubic_at (C false 0%nat 1%nat) (z - zj)) (- cubic_at (C true 0%nat 1%nat) (z - zj)) (- cubic_diff (C false 0%nat 0%nat) (z - zj)).
Proof.
  unfold row_potential, row_field. cbn [vx vy vz]. split; [|f_equal; f_equal].
  - rewrite <- (sum_nu_m_pick (fun nu m => cubic_at (C false nu m) (z - zj)) 0) by (unfold M_MAX; lia). apply sum_nu_m_ext. intros; apply poly_term_axis.
  - rewrite <- (sum_nu_m_pick (fun nu m => cubic_at (C false nu m) (z - zj)) 1) by (unfold M_MAX; lia). apply sum_nu_m_ext. intros. rewrite term_slope_axis. destruct (_ && _)%bool; ring.
  - rewrite <- (sum_nu_m_pick (fun nu m => cubic_at (C true nu m) (z - zj)) 1) by (unfold M_MAX; lia). apply sum_nu_m_ext. intros. rewrite term_slope_axis. destruct (_ && _)%bool; ring.
  - rewrite <- (sum_nu_m_pick (fun nu m => cubic_diff (C false nu m) (z - zj)) 0) by (unfold M_MAX; lia). apply sum_nu_m_ext. intros; apply poly_term_axis.
Qed.

Lemma harmonic_turn m t x y :
  hc m (cos t * x - sin t * y) (sin t * x + cos t * y) = cos (INR m * t) * hc m x y - sin (INR m * t) * hs m x y /\
  hs m (cos t * x - sin t * y) (sin t * x + cos t * y) = sin (INR m * t) * hc m x y + cos (INR m * t) * hs m x y.
Proof.
  induction m as [|m [IHc IHs]].
  - unfold hc, hs. cbn. rewrite Rmult_0_l, cos_0, sin_0. split; ring.
  - rewrite !hc_S, !hs_S, IHc, IHs. replace (INR (S m) * t) with (INR m * t + t) by (rewrite S_INR; ring). rewrite cos_plus, sin_plus. split; ring.
Qed.
