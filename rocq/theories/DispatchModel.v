(** Arithmetic operators on fields: Python's operator protocol (left method, then reflected method, then
    TypeError) over the methods of traceon/solver.py and traceon/interpolation.py. *)
From Coq Require Import Reals.
From Verif Require Import Base Vec GeomModel FieldModel SeriesModel.
Local Open Scope R_scope.

(** solver.py:957-972 FieldAxial.__init__ and interpolation.py:20-34 (both coefficient tables given) *)
Record axial := mkaxial { a_z : list R; a_elec : list coeff_row; a_mag : list coeff_row }.
Definition new_axial (z : list R) (e m : list coeff_row) : result axial :=
  _ <- py_assert (length e =? length z - 1)%nat ;;
  _ <- py_assert (length m =? length z - 1)%nat ;;
  first <- np_get z 0 ;; last <- np_get z (length z - 1) ;;
  _ <- py_assert (if Rlt_dec first last then true else false) ;;
  Ok (mkaxial z e m).

(** Two classes are called FieldRadialAxial: the one of solver.py, built from samples and coefficients, and
    the one of interpolation.py, built from a FieldRadialBEM and a range. *)
Inductive axial_class := SolverAxial | InterpolationAxial.
Inductive value := VNum (x : R) | VBem (f : bem) | VAxial (c : axial_class) (a : axial).

(** A method returns a value, NotImplemented ([None]) or raises. *)
Definition method_result := result (option value).
Definition value_of_bem (r : result bem) : method_result := f <- r ;; Ok (Some (VBem f)).

(** FieldBEM, solver.py:576-610.  Attributes are looked up from left to right: a number has no
    electrostatic_point_charges, EffectivePointCharges has no __sub__ and no __radd__, and __neg__ takes an
    argument that the operator does not give. *)
Definition bem_add_method (f : bem) (other : value) : method_result :=
  match other with VBem g => value_of_bem (bem_add f g) | _ => Err AttributeError end.
Definition bem_sub_method (f : bem) (other : value) : method_result := Err AttributeError.
Definition bem_radd_method (f : bem) (other : value) : method_result := Err AttributeError.
(** EffectivePointCharges.__mul__ of another EffectivePointCharges is NotImplemented, three times; the
    constructor refuses them: Field3D_BEM for the number of arguments, FieldRadialBEM by an assertion *)
Definition bem_mul_method (f : bem) (other : value) : method_result :=
  match other with
  | VBem _ => match b_class f with FieldRadialBEM => Err AssertionError | Field3D_BEM => Err TypeError end
  | _ => Err AttributeError
  end.
Definition bem_rmul_method := bem_mul_method.
Definition bem_neg_method (f : bem) : result value := Err TypeError.

(** [self.__class__(z, e, m)]: the constructor of interpolation.FieldRadialAxial takes (field, zmin, zmax)
    and asserts that its first argument is a FieldRadialBEM (interpolation.py:104-105) *)
Definition axial_call (c : axial_class) (z : list R) (e m : list coeff_row) : method_result :=
  match c with
  | SolverAxial => a <- new_axial z e m ;; Ok (Some (VAxial SolverAxial a))
  | InterpolationAxial => Err AssertionError
  end.
Definition table_add (a b : list coeff_row) : list coeff_row := map2 (fun r s i => poly6_add (r i) (s i)) a b.
Definition table_scale (k : R) (a : list coeff_row) : list coeff_row := map (fun r i => poly6_scale k (r i)) a.
Definition same_class (a b : axial_class) : bool := match a, b with SolverAxial, SolverAxial | InterpolationAxial, InterpolationAxial => true | _, _ => false end.
(** FieldAxial, solver.py:983-1009 and interpolation.py:46-71: the two base classes FieldAxial are different
    classes too *)
Definition axial_add_method (c : axial_class) (a : axial) (other : value) : method_result :=
  match other with
  | VAxial c' b =>
      if same_class c c' then
        _ <- py_assert (if list_eq_dec Req_EM_T (a_z a) (a_z b) then true else false) ;;
        _ <- py_assert (length (a_elec a) =? length (a_elec b))%nat ;;
        _ <- py_assert (length (a_mag a) =? length (a_mag b))%nat ;;
        axial_call c (a_z a) (table_add (a_elec a) (a_elec b)) (table_add (a_mag a) (a_mag b))
      else Ok None
  | _ => Ok None
  end.
Definition axial_mul_method (c : axial_class) (a : axial) (other : value) : method_result :=
  match other with
  | VNum k => axial_call c (a_z a) (table_scale k (a_elec a)) (table_scale k (a_mag a))
  | _ => Ok None
  end.

(** int and float answer NotImplemented for fields. *)
Definition add_method (x y : value) : method_result :=
  match x with
  | VNum a => match y with VNum b => Ok (Some (VNum (a + b))) | _ => Ok None end
  | VBem f => bem_add_method f y
  | VAxial c a => axial_add_method c a y
  end.
Definition radd_method (x y : value) : method_result :=
  match x with VNum _ => Ok None | VBem f => bem_radd_method f y | VAxial c a => axial_add_method c a y end.
Definition mul_method (x y : value) : method_result :=
  match x with
  | VNum a => match y with VNum b => Ok (Some (VNum (a * b))) | _ => Ok None end
  | VBem f => bem_mul_method f y
  | VAxial c a => axial_mul_method c a y
  end.
Definition rmul_method (x y : value) : method_result :=
  match x with VNum _ => Ok None | VBem f => bem_rmul_method f y | VAxial c a => axial_mul_method c a y end.

(** The operators.  (Python skips the reflected method for operands of the same type; it would answer
    NotImplemented there, or the first method does not answer NotImplemented.) *)
Definition or_reflected (r reflected : method_result) : result value :=
  x <- r ;;
  match x with
  | Some v => Ok v
  | None => y <- reflected ;; match y with Some v => Ok v | None => Err TypeError end
  end.
Definition py_add (x y : value) : result value := or_reflected (add_method x y) (radd_method y x).
Definition py_mul (x y : value) : result value := or_reflected (mul_method x y) (rmul_method y x).
(** FieldAxial.__neg__ is [-1*self] *)
Definition py_neg (x : value) : result value :=
  match x with VNum a => Ok (VNum (- a)) | VBem f => bem_neg_method f | VAxial _ _ => py_mul (VNum (-1)) x end.
(** __sub__; no class has __rsub__ *)
Definition py_sub (x y : value) : result value :=
  match x with
  | VNum a => match y with VNum b => Ok (VNum (a - b)) | _ => Err TypeError end
  | VBem f => or_reflected (bem_sub_method f y) (Ok None)
  | VAxial c a => n <- py_neg y ;; or_reflected (axial_add_method c a n) (Ok None)
  end.
(** the built-in sum: starts from 0 *)
Definition py_sum (l : list value) : result value := fold_left (fun acc y => x <- acc ;; py_add x y) l (Ok (VNum 0)).

(** The four methods for evaluation (FieldRadialAxial, solver.py:1019-1086 and interpolation.py:133-199). *)
Definition axial_potential (elec : bool) (a : axial) (p : vec3) : result R := potential_radial_derivs p (a_z a) (if elec then a_elec a else a_mag a).
Definition axial_field (elec : bool) (a : axial) (p : vec3) : result vec3 := field_radial_derivs p (a_z a) (if elec then a_elec a else a_mag a).
