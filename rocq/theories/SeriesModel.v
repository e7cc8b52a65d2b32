(** Axial derivatives, their interpolation and the radial series expansion (backend/radial.c, radial_ring.c,
    traceon/interpolation.py, solver.py FieldAxial) over the reals. *)
From Coq Require Import Reals ZArith.
From Verif Require Import Base Vec GeomModel FieldModel.
Local Open Scope R_scope.

(** ** Axial derivatives of one ring *)
(** backend/radial_ring.c:106-119 axial_derivatives_radial_ring.  The loop fills derivs[n+1] from derivs[n]
    and derivs[n-1]: the pair is (derivs[n], derivs[n+1]). *)
Fixpoint ring_pair (n : nat) (u R0 : R) : R * R :=
  match n with
  | O => (1 / R0, - u / R0 ^ 3)
  | S m => let '(a, b) := ring_pair m u R0 in
           (b, -1 / R0 ^ 2 * ((2 * INR n + 1) * u * b + INR n ^ 2 * a))
  end.
Definition axial_derivatives_radial_ring (z0 r z : R) : list R :=
  map (fun n => fst (ring_pair n (z0 - z) (norm_2d (z0 - z) r)) * (r / 2)) (arange 9).
(** backend/radial_ring.c:71-74 *)
Definition current_potential_axial_radial_ring (z0 r z : R) : R := let dz := z0 - z in - dz / (2 * sqrt (dz * dz + r * r)).
(** backend/radial_ring.c:121-133 current_axial_derivatives_radial_ring; pow(x, 1.5) is x * sqrt(x) *)
Fixpoint current_pair (n : nat) (dz r R0 : R) : R * R :=
  match n with
  | O => (- dz / (2 * sqrt (dz * dz + r * r)), - r * r / (2 * ((dz * dz + r * r) * sqrt (dz * dz + r * r))))
  | S m => let '(a, b) := current_pair m dz r R0 in
           let k := INR (S n) in
           (b, - (2 * k - 1) * (dz / R0) / R0 * b - (k * k - 2 * k) / (R0 * R0) * a)
  end.
Definition current_axial_derivatives_radial_ring (z0 r z : R) : list R :=
  map (fun n => fst (current_pair n (z0 - z) r (norm_2d (z0 - z) r))) (arange 9).

(** backend/radial.c:18-36, 85-103 axial_derivatives_radial, current_axial_derivatives_radial: one row per z *)
Definition axial_row (ring : R -> R -> R -> list R) (z : R) (c : charges) : list R :=
  map (fun l => evaluate (fun q => nth l (ring z (vx q) (vz q)) 0) c) (arange 9).
Definition electrostatic_axial_derivatives (f : bem) (zs : list R) : list (list R) :=
  map (fun z => axial_row axial_derivatives_radial_ring z (b_elec f)) zs.
(** solver.py:792-812 get_magnetostatic_axial_potential_derivatives: sum of both contributions *)
Definition magnetostatic_axial_derivatives (f : bem) (zs : list R) : list (list R) :=
  map (fun z => map2 Rplus (axial_row axial_derivatives_radial_ring z (b_mag f)) (axial_row current_axial_derivatives_radial_ring z (b_cur f))) zs.

(** ** Interpolation *)
(** A table of coefficients: shape (len(z)-1, 9, 6); one row holds nine polynomials, highest power first. *)
Definition poly6 := (R * R * R * R * R * R)%type.
Definition coeff_row := nat -> poly6.
Definition poly6_zero : poly6 := (0, 0, 0, 0, 0, 0).
Definition poly6_add (a b : poly6) : poly6 :=
  let '(a0, a1, a2, a3, a4, a5) := a in let '(b0, b1, b2, b3, b4, b5) := b in (a0 + b0, a1 + b1, a2 + b2, a3 + b3, a4 + b4, a5 + b5).
Definition poly6_scale (k : R) (a : poly6) : poly6 := let '(a0, a1, a2, a3, a4, a5) := a in (k * a0, k * a1, k * a2, k * a3, k * a4, k * a5).

(** scipy BPoly.from_derivatives(z, [y, y', y'']) on one interval of length h, and its six Bernstein coefficients *)
Definition bernstein_hermite (h ya ya' ya'' yb yb' yb'' : R) : R * R * R * R * R * R :=
  let c0 := ya in
  let c1 := ya' / 5 * h + c0 in
  let c2 := ya'' / 20 * h ^ 2 - c0 + 2 * c1 in
  let c5 := yb in
  let c4 := - (yb' / 5 * h) + c5 in
  let c3 := yb'' / 20 * h ^ 2 + 2 * c4 - c5 in
  (c0, c1, c2, c3, c4, c5).
(** scipy PPoly.from_bernstein_basis for degree five: coefficients of powers of (z - z_i), highest first:
    sum over a of c_a binom(5,a) t^a (1-t)^(5-a) with t = (z - z_i) / h *)
Definition bernstein_to_power (h : R) (c : R * R * R * R * R * R) : poly6 :=
  let '(c0, c1, c2, c3, c4, c5) := c in
  ((- c0 + 5 * c1 - 10 * c2 + 10 * c3 - 5 * c4 + c5) / h ^ 5,
   (5 * c0 - 20 * c1 + 30 * c2 - 20 * c3 + 5 * c4) / h ^ 4,
   (- 10 * c0 + 30 * c1 - 30 * c2 + 10 * c3) / h ^ 3,
   (10 * c0 - 20 * c1 + 10 * c2) / h ^ 2,
   (- 5 * c0 + 5 * c1) / h,
   c0).
(** interpolation.py:77-100 _quintic_spline_coefficients.  [derivs i j]: derivative number i at z_j.  The
    two highest derivatives use scipy's CubicSpline (an arbitrary function here), whose four coefficients
    fill the last four places. *)
Definition quintic_row (zs : list R) (derivs : nat -> nat -> R) (cubic : nat -> nat -> R * R * R * R) (j : nat) : coeff_row :=
  fun i =>
    let h := nth (S j) zs 0 - nth j zs 0 in
    if (i + 2 <? 9)%nat then
      bernstein_to_power h (bernstein_hermite h (derivs i j) (derivs (S i) j) (derivs (S (S i)) j)
                                                 (derivs i (S j)) (derivs (S i) (S j)) (derivs (S (S i)) (S j)))
    else let '(a, b, c, d) := cubic i j in (0, 0, a, b, c, d).
Definition quintic_spline_coefficients (zs : list R) derivs cubic : list coeff_row :=
  map (quintic_row zs derivs cubic) (arange (length zs - 1)).

(** ** Evaluation *)
(** the C cast to int: truncation towards zero *)
Definition c_int (x : R) : Z := if Rle_dec 0 x then Int_part x else (- Int_part (- x))%Z.
Definition poly_at (c : poly6) (d : R) : R :=
  let '(c0, c1, c2, c3, c4, c5) := c in c0 * d ^ 5 + c1 * d ^ 4 + c2 * d ^ 3 + c3 * d ^ 2 + c4 * d + c5.
(** radial.c:317-338 and 349-371: bounds test, index, and the nine interpolated derivatives; [None] outside
    the range.  A row that is not in the table is an error. *)
Definition series_index (zs : list R) (z0 z1 z : R) : nat :=
  Z.to_nat (Z.min (Z.max 0 (c_int ((z - z0) / (z1 - z0)))) (Z.of_nat (length zs) - 1)).
Definition series_derivs (zs : list R) (coeff : list coeff_row) (z : R) : result (option (nat -> R)) :=
  z0 <- np_get zs 0 ;; zlast <- np_get zs (length zs - 1) ;;
  if Rle_dec z0 z then
    if Rle_dec z zlast then
      z1 <- np_get zs 1 ;;
      let index := series_index zs z0 z1 z in
      zi <- np_get zs index ;;
      row <- np_get coeff index ;;
      Ok (Some (fun i => poly_at (row i) (z - zi)))
    else Ok None
  else Ok None.
(** radial.c:312-343 potential_radial_derivs *)
Definition potential_series (d : nat -> R) (r : R) : R :=
  d 0%nat - r ^ 2 / 4 * d 2%nat + r ^ 4 / 64 * d 4%nat - r ^ 6 / 2304 * d 6%nat + r ^ 8 / 147456 * d 8%nat.
Definition potential_radial_derivs (p : vec3) (zs : list R) (coeff : list coeff_row) : result R :=
  d <- series_derivs zs coeff (vz p) ;;
  Ok match d with None => 0 | Some d => potential_series d (norm_2d (vx p) (vy p)) end.
(** radial.c:345-382 field_radial_derivs *)
Definition field_series (d : nat -> R) (p : vec3) : vec3 :=
  let r := norm_2d (vx p) (vy p) in
  let field_radial := 0.5 * (d 2%nat - r ^ 2 / 8 * d 4%nat + r ^ 4 / 192 * d 6%nat - r ^ 6 / 9216 * d 8%nat) in
  let field_z := - d 1%nat + r ^ 2 / 4 * d 3%nat - r ^ 4 / 64 * d 5%nat + r ^ 6 / 2304 * d 7%nat in
  V3 (vx p * field_radial) (vy p * field_radial) field_z.
Definition field_radial_derivs (p : vec3) (zs : list R) (coeff : list coeff_row) : result vec3 :=
  d <- series_derivs zs coeff (vz p) ;;
  Ok match d with None => vzero | Some d => field_series d p end.
