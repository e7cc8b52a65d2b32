(** Construction of an axial field from a radial field (traceon/interpolation.py FieldRadialAxial). *)
From Coq Require Import Reals.
From Verif Require Import Base Vec GeomModel FieldModel SeriesModel DispatchModel.
Local Open Scope R_scope.

(** numpy.linspace(a, b, N): the step is (b - a) / (N - 1), a single sample is a *)
Definition linspace (a b : R) (N : nat) : list R :=
  if (N <=? 1)%nat then map (fun _ => a) (arange N)
  else map (fun i => a + INR i * ((b - a) / INR (N - 1))) (arange N).

(** interpolation.py:118-119: int(0.2*max(number of electrostatic charges, number of magnetostatic charges))
    unless the caller gives N.  The product 0.2*n, computed in doubles and truncated, is the integer quotient
    of n by five. *)
Definition default_samples (f : bem) : nat := (Nat.max (length (q_items (b_elec f))) (length (q_items (b_mag f))) / 5)%nat.
Definition number_of_samples (f : bem) (N : option nat) : nat := match N with Some n => n | None => default_samples f end.

(** interpolation.py:77-100 for a table of derivatives with one row per sample.  np.zeros refuses the negative
    dimension of an empty table; z[1] does not exist for a single sample.  (The assertions that the samples
    are equally spaced and that scipy returns the given knots hold.)  [spline z y i]: the coefficients of
    scipy's CubicSpline(z, y) on interval i, highest power first. *)
Definition table_coefficients (spline : list R -> list R -> nat -> R * R * R * R) (zs : list R) (table : list (list R)) : result (list coeff_row) :=
  if (length zs =? 0)%nat then Err ValueError else
  _ <- np_get zs 1 ;;
  let derivs := fun i j => nth i (nth j table []) 0 in
  Ok (quintic_spline_coefficients zs derivs (fun i j => spline zs (map (fun row => nth i row 0) table) j)).

(** interpolation.py:104-131 FieldRadialAxial.__init__ and _get_interpolation_coefficients.  split_collect
    gives the tables of SeriesModel (C31: every row once, in order). *)
Definition field_radial_axial (spline : list R -> list R -> nat -> R * R * R * R) (f : bem) (zmin zmax : R) (N : option nat) : result axial :=
  _ <- py_assert (match b_class f with FieldRadialBEM => true | Field3D_BEM => false end) ;;
  _ <- py_assert (if Rlt_dec zmin zmax then true else false) ;;
  let zs := linspace zmin zmax (number_of_samples f N) in
  e <- table_coefficients spline zs (electrostatic_axial_derivatives f zs) ;;
  m <- table_coefficients spline zs (magnetostatic_axial_derivatives f zs) ;;
  new_axial zs e m.
