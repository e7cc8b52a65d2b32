(** The functions of the C backend that read and write arrays, on memory (MemModel), and the Python functions of
    traceon/backend/__init__.py that call them.  Arithmetic is that of the other models (FieldModel, SeriesModel,
    Axial3DModel, MatrixModel); here every access to memory is explicit.  C [int] loop counters are natural numbers.
    The released library is compiled with -DNDEBUG (setup.py:8-13), so the C asserts are absent. *)
From Coq Require Import Reals QArith Qreals.
From Verif Require Import Base Vec GeomModel Tables QuadModel MemModel FieldModel TriangleModel SeriesModel Axial3DModel SolverModel MatrixModel.
From Verif Require PathModel TracingModel.
Local Open Scope R_scope.
Local Open Scope mem_scope.

(** backend constants: definitions.c, utilities_2d.c:3, utilities_3d.c:4, radial_ring.c, three_d.c:3-4 *)
Definition N_QUAD_2D : nat := 16.
Definition N_TRIANGLE_QUAD : nat := 12.
Definition DERIV_2D_MAX : nat := 9.

(** double v\[3\] *)
Definition ld3 (p : ptr) : M vec3 := x <~ ld p 0 ;; y <~ ld p 1 ;; z <~ ld p 2 ;; ret (V3 x y z).
Definition st3 (p : ptr) (v : vec3) : M unit := st p 0 (vx v) ;;; st p 1 (vy v) ;;; st p 2 (vz v).

(** ** Geometry *)
(** utilities_2d.c:18-29 normal_2d *)
Definition c_normal_2d (p1 p2 normal : ptr) : M unit :=
  x1 <~ ld p1 0 ;; y1 <~ ld p1 1 ;; x2 <~ ld p2 0 ;; y2 <~ ld p2 1 ;;
  let n := normal_2d x1 y1 x2 y2 in st normal 0 (fst n) ;;; st normal 1 (snd n).
(** utilities_2d.c:36-40, 57-61: v\[0\] and v\[2\] of a point *)
Definition ld_xz (v : ptr) : M vec3 := x <~ ld v 0 ;; z <~ ld v 2 ;; ret (V3 x 0 z).
(** utilities_2d.c:31-48 higher_order_normal_radial *)
Definition c_higher_order_normal_radial (alpha : R) (v1 v2 v3 v4 : ptr) : M (R * R) :=
  a <~ ld_xz v1 ;; b <~ ld_xz v2 ;; c <~ ld_xz v3 ;; d <~ ld_xz v4 ;; ret (higher_order_normal_radial alpha a b c d).
(** utilities_2d.c:50-66 position_and_jacobian_radial *)
Definition c_position_and_jacobian_radial (alpha : R) (v1 v2 v3 v4 : ptr) : M (R * R * R) :=
  a <~ ld_xz v1 ;; b <~ ld_xz v2 ;; c <~ ld_xz v3 ;; d <~ ld_xz v4 ;;
  ret (position_radial alpha a b c d, jacobian_radial alpha a b c d).
(** a triangle, double t\[3\]\[3\] *)
Definition ld_triangle (t : ptr) : M (vec3 * vec3 * vec3) :=
  a <~ ld3 t ;; b <~ ld3 (shift t 3) ;; c <~ ld3 (shift t 6) ;; ret (a, b, c).
(** utilities_3d.c:104-118 normal_3d *)
Definition c_normal_3d (t normal : ptr) : M unit := abc <~ ld_triangle t ;; let '(a, b, c) := abc in st3 normal (normal_3d a b c).
(** utilities_3d.c:120-134 position_and_jacobian_3d *)
Definition c_position_and_jacobian_3d (alpha beta : R) (t pos : ptr) : M R :=
  abc <~ ld_triangle t ;; let '(a, b, c) := abc in st3 pos (position_3d alpha beta a b c) ;;; ret (jacobian_3d a b c).
(** three_d.c:300-319 triangle_areas *)
Definition c_triangle_areas (triangles out : ptr) (N : nat) : M unit :=
  for_each N (fun i => abc <~ ld_triangle (shift triangles (9 * i)) ;; let '(a, b, c) := abc in st out i (triangle_area a b c)).
(** utilities_3d.c:140-161 combine_elec_magnetic_field *)
Definition c_combine_elec_magnetic_field (velocity elec mag current result : ptr) : M unit :=
  m <~ ld3 mag ;; c <~ ld3 current ;; v <~ ld3 velocity ;; e <~ ld3 elec ;;
  st3 result (TracingModel.combine_elec_magnetic_field v e m c).

(** ** Sums over charges *)
(** radial.c:105-121 potential_radial *)
Definition c_potential_radial (point charges jac pos : ptr) (N : nat) : M R :=
  p <~ ld3 point ;;
  let r0 := norm_2d (vx p) (vy p) in let z0 := vz p in
  loop N 0 (fun i sum_ => loop N_QUAD_2D sum_ (fun k sum_ =>
    r <~ ld pos ((i * N_QUAD_2D + k) * 2) ;; z <~ ld pos ((i * N_QUAD_2D + k) * 2 + 1) ;;
    q <~ ld charges i ;; j <~ ld jac (i * N_QUAD_2D + k) ;;
    ret (sum_ + q * j * potential_radial_ring r0 z0 r z))).
(** radial.c:150-173 field_radial *)
Definition c_field_radial (point result charges jac pos : ptr) (N : nat) : M unit :=
  x <~ ld point 0 ;; y <~ ld point 1 ;;
  let r0 := norm_2d x y in
  E <~ loop N (0, 0) (fun i E => loop N_QUAD_2D E (fun k E =>
    r <~ ld pos ((i * N_QUAD_2D + k) * 2) ;; z <~ ld pos ((i * N_QUAD_2D + k) * 2 + 1) ;;
    z0 <~ ld point 2 ;; q <~ ld charges i ;; j <~ ld jac (i * N_QUAD_2D + k) ;;
    ret (fst E - q * j * dr1_potential_radial_ring r0 z0 r z, snd E - q * j * dz1_potential_radial_ring r0 z0 r z))) ;;
  (if Rle_dec MIN_DISTANCE_AXIS r0 then st result 0 (x / r0 * fst E) ;;; st result 1 (y / r0 * fst E)
   else st result 0 0 ;;; st result 1 0) ;;;
  st result 2 (snd E).
(** radial.c:55-83 current_field *)
Definition c_current_field (point result currents jac pos : ptr) (N : nat) : M unit :=
  x <~ ld point 0 ;; y <~ ld point 1 ;;
  let r0 := norm_2d x y in
  B <~ loop N (0, 0) (fun i B => loop N_TRIANGLE_QUAD B (fun k B =>
    r <~ ld pos ((i * N_TRIANGLE_QUAD + k) * 3) ;; z <~ ld pos ((i * N_TRIANGLE_QUAD + k) * 3 + 2) ;;
    z0 <~ ld point 2 ;; q <~ ld currents i ;; j <~ ld jac (i * N_TRIANGLE_QUAD + k) ;;
    let f := current_field_radial_ring r0 z0 r z in
    ret (fst B + q * j * fst f, snd B + q * j * snd f))) ;;
  (if Rle_dec MIN_DISTANCE_AXIS r0 then st result 0 (x / r0 * fst B) ;;; st result 1 (y / r0 * fst B)
   else st result 0 0 ;;; st result 1 0) ;;;
  st result 2 (snd B).
(** radial.c:38-53 current_potential_axial *)
Definition c_current_potential_axial (z0 : R) (currents jac pos : ptr) (N : nat) : M R :=
  loop N 0 (fun i s => loop N_TRIANGLE_QUAD s (fun k s =>
    r <~ ld pos ((i * N_TRIANGLE_QUAD + k) * 3) ;; z <~ ld pos ((i * N_TRIANGLE_QUAD + k) * 3 + 2) ;;
    q <~ ld currents i ;; j <~ ld jac (i * N_TRIANGLE_QUAD + k) ;;
    ret (s + q * j * current_potential_axial_radial_ring z0 r z))).
(** three_d.c:34-49 potential_3d *)
Definition c_potential_3d (point charges jac pos : ptr) (N : nat) : M R :=
  loop N 0 (fun i s => loop N_TRIANGLE_QUAD s (fun k s =>
    p <~ ld3 point ;; x <~ ld3 (shift pos ((i * N_TRIANGLE_QUAD + k) * 3)) ;;
    q <~ ld charges i ;; j <~ ld jac (i * N_TRIANGLE_QUAD + k) ;;
    ret (s + q * j * potential_3d_point p x))).
(** three_d.c:63-85 field_3d *)
Definition c_field_3d (point result charges jac pos : ptr) (N : nat) : M unit :=
  E <~ loop N vzero (fun i E => loop N_TRIANGLE_QUAD E (fun k E =>
    p <~ ld3 point ;; x <~ ld3 (shift pos ((i * N_TRIANGLE_QUAD + k) * 3)) ;;
    q <~ ld charges i ;; j <~ ld jac (i * N_TRIANGLE_QUAD + k) ;;
    ret (V3 (vx E - q * j * dx1_potential_3d_point p x) (vy E - q * j * dy1_potential_3d_point p x)
            (vz E - q * j * dz1_potential_3d_point p x)))) ;;
  st3 result E.
(** radial.c:18-35 and 84-100, with [ring] the derivatives of one ring and the axial coordinate at [zc] of [D] *)
Definition c_axial_derivatives (ring : R -> R -> R -> list R) (Q D zc : nat) (derivs charges jac pos : ptr) (N : nat) (z : ptr) (N_z : nat) : M unit :=
  for_each N_z (fun i => for_each N (fun j => for_each Q (fun k =>
    z0 <~ ld z i ;; r <~ ld pos ((j * Q + k) * D) ;; zp <~ ld pos ((j * Q + k) * D + zc) ;;
    let Dv := ring z0 r zp in
    for_each DERIV_2D_MAX (fun l =>
      w <~ ld jac (j * Q + k) ;; q <~ ld charges j ;; st_add derivs (i * DERIV_2D_MAX + l) (w * q * nth l Dv 0))))).
(** three_d.c:89-198 axial_coefficients_3d; the buffers hold the angular factors of every quadrature point.  The sum over m multiplies
    [r_dependence] by r once per step. *)
Definition c_axial_coefficients_3d (charges jac pos tcos tsin : ptr) (N : nat) (zs out : ptr) (N_z : nat) : M unit :=
  for_each N (fun h => for_each N_TRIANGLE_QUAD (fun k => for_each M_MAX (fun m =>
    x <~ ld pos ((h * N_TRIANGLE_QUAD + k) * 3) ;; y <~ ld pos ((h * N_TRIANGLE_QUAD + k) * 3 + 1) ;;
    st tcos ((h * N_TRIANGLE_QUAD + k) * M_MAX + m) (trig_cos (V3 x y 0) m) ;;;
    st tsin ((h * N_TRIANGLE_QUAD + k) * M_MAX + m) (trig_sin (V3 x y 0) m)))) ;;;
  for_each N_z (fun i => for_each N (fun h => for_each N_TRIANGLE_QUAD (fun k =>
    q <~ ld3 (shift pos ((h * N_TRIANGLE_QUAD + k) * 3)) ;; z <~ ld zs i ;;
    for_each NU_MAX (fun nu => for_each M_MAX (fun m =>
      w <~ ld jac (h * N_TRIANGLE_QUAD + k) ;;
      C <~ ld tcos ((h * N_TRIANGLE_QUAD + k) * M_MAX + m) ;; S <~ ld tsin ((h * N_TRIANGLE_QUAD + k) * M_MAX + m) ;;
      c <~ ld charges h ;;
      st_add out (((i * 2 + 0) * NU_MAX + nu) * M_MAX + m) (c * w * axial_term (fun _ _ => C) z nu m q) ;;;
      st_add out (((i * 2 + 1) * NU_MAX + nu) * M_MAX + m) (c * w * axial_term (fun _ _ => S) z nu m q)))))).

(** ** Elements *)
(** radial.c:123-148 charge_radial; vertices of the line element in the order 0 2 3 1 *)
Definition c_charge_radial (vertices : ptr) (charge : R) : M R :=
  loop N_QUAD_2D 0 (fun k s =>
    pj <~ c_position_and_jacobian_radial (Q2R (nth k gauss_points 0%Q)) vertices (shift vertices 6) (shift vertices 9) (shift vertices 3) ;;
    ret (s + 2 * PI * fst (fst pj) * Q2R (nth k gauss_weights 0%Q) * snd pj * charge)).
(** radial.c:224-246 fill_jacobian_buffer_radial *)
Definition c_fill_jacobian_buffer_radial (jac pos lines : ptr) (N : nat) : M unit :=
  for_each N (fun i => for_each N_QUAD_2D (fun k =>
    let l := shift lines (12 * i) in
    pj <~ c_position_and_jacobian_radial (Q2R (nth k gauss_points 0%Q)) l (shift l 6) (shift l 9) (shift l 3) ;;
    st jac (i * N_QUAD_2D + k) (Q2R (nth k gauss_weights 0%Q) * snd pj) ;;;
    st pos ((i * N_QUAD_2D + k) * 2) (fst (fst pj)) ;;; st pos ((i * N_QUAD_2D + k) * 2 + 1) (snd (fst pj)))).
(** tracing.c:253-281 fill_jacobian_buffer_3d *)
Definition c_fill_jacobian_buffer_3d (jac pos t : ptr) (N : nat) : M unit :=
  for_each N (fun i =>
    abc <~ ld_triangle (shift t (9 * i)) ;; let '(a, b, c) := abc in
    for_each N_TRIANGLE_QUAD (fun k =>
      st jac (i * N_TRIANGLE_QUAD + k) (nth k (jacobian_buffer_3d a b c) 0) ;;;
      st3 (shift pos ((i * N_TRIANGLE_QUAD + k) * 3)) (nth k (position_buffer_3d a b c) vzero))).

(** ** The matrix *)
(** enum ExcitationType (definitions.c:33-39) *)
Definition type_is (x : R) (l : list R) : bool := existsb (fun y => if Req_EM_T x y then true else false) l.
Definition POTENTIAL_TYPES : list R := [1; 2; 5].
Definition FLUX_TYPES : list R := [3; 6].
(** radial.c:249-310 fill_matrix_radial; rows start .. end_ inclusive *)
Definition c_fill_matrix_radial (matrix lines types values jac pos : ptr) (N_lines N_matrix start end_ : nat) : M unit :=
  for_each (S end_ - start) (fun n =>
    let i := (start + n)%nat in let l := shift lines (12 * i) in
    pj <~ c_position_and_jacobian_radial 0 l (shift l 6) (shift l 9) (shift l 3) ;;
    let target := fst pj in
    t <~ load UInt8 types (Z.of_nat i) ;;
    if type_is t POTENTIAL_TYPES then
      for_each N_lines (fun j => for_each N_QUAD_2D (fun k =>
        w <~ ld jac (j * N_QUAD_2D + k) ;;
        r <~ ld pos ((j * N_QUAD_2D + k) * 2) ;; z <~ ld pos ((j * N_QUAD_2D + k) * 2 + 1) ;;
        st_add matrix (i * N_matrix + j) (w * potential_radial_ring (fst target) (snd target) r z)))
    else if type_is t FLUX_TYPES then
      for_each N_lines (fun j =>
        normal <~ c_higher_order_normal_radial 0 l (shift l 6) (shift l 9) (shift l 3) ;;
        K <~ ld values i ;;
        for_each N_QUAD_2D (fun k =>
          w <~ ld jac (j * N_QUAD_2D + k) ;;
          r <~ ld pos ((j * N_QUAD_2D + k) * 2) ;; z <~ ld pos ((j * N_QUAD_2D + k) * 2 + 1) ;;
          st_add matrix (i * N_matrix + j) (w * field_dot_normal_radial normal K (fst target) (snd target) r z)))
    else c_exit).

Section Triangles.
(** the adaptive integrator of kronrod.c, as in TriangleModel *)
Variable integrate : (R -> R) -> R -> R -> R.
(** tracing.c:283-366 fill_matrix_3d; the first assignment to the diagonal (self_potential_triangle) is overwritten *)
Definition c_fill_matrix_3d (matrix triangles types values jac pos : ptr) (N_lines N_matrix start end_ : nat) : M unit :=
  for_each (S end_ - start) (fun n =>
    let i := (start + n)%nat in
    abc <~ ld_triangle (shift triangles (9 * i)) ;; let '(a, b, c) := abc in
    let target := position_3d (1 / 3) (1 / 3) a b c in
    t <~ load UInt8 types (Z.of_nat i) ;;
    if type_is t POTENTIAL_TYPES then
      for_each N_lines (fun j =>
        s <~ ld_triangle (shift triangles (9 * j)) ;; let '(s0, s1, s2) := s in
        (if (i =? j)%nat then st matrix (i * N_matrix + j) (self_potential_triangle s0 s1 s2 target) else ret tt) ;;;
        if negb (i =? j)%nat && far target s0 s1 then
          for_each N_TRIANGLE_QUAD (fun k =>
            q <~ ld3 (shift pos ((j * N_TRIANGLE_QUAD + k) * 3)) ;; w <~ ld jac (j * N_TRIANGLE_QUAD + k) ;;
            st_add matrix (i * N_matrix + j) (w * potential_3d_point target q))
        else st matrix (i * N_matrix + j) (potential_triangle integrate s0 s1 s2 target / (4 * PI)))
    else if type_is t FLUX_TYPES then
      K <~ ld values i ;;
      let normal := normal_3d a b c in let factor := flux_density_to_charge_factor K in
      for_each N_lines (fun j =>
        s <~ ld_triangle (shift triangles (9 * j)) ;; let '(s0, s1, s2) := s in
        if (i =? j)%nat then st matrix (i * N_matrix + j) (-1)
        else if far target s0 s1 then
          for_each N_TRIANGLE_QUAD (fun k =>
            q <~ ld3 (shift pos ((j * N_TRIANGLE_QUAD + k) * 3)) ;; w <~ ld jac (j * N_TRIANGLE_QUAD + k) ;;
            st_add matrix (i * N_matrix + j) (factor * w * field_dot_normal_3d normal target q))
        else st matrix (i * N_matrix + j) (factor * flux_triangle integrate s0 s1 s2 target normal / (4 * PI)))
    else c_exit).
End Triangles.

(** ** Interpolated series *)
(** radial.c:316-331, 350-366 and three_d.c:206-216, 247-257: the row of the table, and the distance to its sample;
    [None] outside the range.  z_inter\[N_z-1\] is at a negative index for N_z = 0. *)
Definition c_table_row (z : R) (z_inter : ptr) (N_z : nat) : M (option (nat * R)) :=
  z0 <~ ld z_inter 0 ;; zlast <~ load Float64 z_inter (Z.of_nat N_z - 1) ;;
  if Rle_dec z0 z then
    if Rle_dec z zlast then
      z1 <~ ld z_inter 1 ;;
      let index := Z.to_nat (Z.min (Z.max 0 (c_int ((z - z0) / (z1 - z0)))) (Z.of_nat N_z - 1)) in
      zi <~ ld z_inter index ;; ret (Some (index, z - zi))
    else ret None
  else ret None.
(** a list filled by a loop: a local C array *)
Fixpoint fill_from {A} (i n : nat) (f : nat -> M A) : M (list A) :=
  match n with O => ret [] | S n' => a <~ f i ;; l <~ fill_from (S i) n' f ;; ret (a :: l) end.
Definition fill {A} (n : nat) (f : nat -> M A) : M (list A) := fill_from 0 n f.
Definition ld_poly6 (p : ptr) : M poly6 :=
  a <~ ld p 0 ;; b <~ ld p 1 ;; c <~ ld p 2 ;; d <~ ld p 3 ;; e <~ ld p 4 ;; f <~ ld p 5 ;; ret (a, b, c, d, e, f).
Definition c_derivs (coeff : ptr) (index : nat) (diffz : R) : M (nat -> R) :=
  l <~ fill DERIV_2D_MAX (fun i => c <~ ld_poly6 (shift coeff ((index * DERIV_2D_MAX + i) * 6)) ;; ret (poly_at c diffz)) ;;
  ret (fun i => nth i l 0).
(** radial.c:312-342 potential_radial_derivs *)
Definition c_potential_radial_derivs (point z_inter coeff : ptr) (N_z : nat) : M R :=
  p <~ ld3 point ;; row <~ c_table_row (vz p) z_inter N_z ;;
  match row with
  | None => ret 0
  | Some (index, diffz) => d <~ c_derivs coeff index diffz ;; ret (potential_series d (norm_2d (vx p) (vy p)))
  end.
(** radial.c:345-380 field_radial_derivs *)
Definition c_field_radial_derivs (point field z_inter coeff : ptr) (N_z : nat) : M unit :=
  p <~ ld3 point ;; row <~ c_table_row (vz p) z_inter N_z ;;
  match row with
  | None => st3 field vzero
  | Some (index, diffz) => d <~ c_derivs coeff index diffz ;; st3 field (field_series d p)
  end.
Definition ld_poly4 (p : ptr) : M poly4 := a <~ ld p 0 ;; b <~ ld p 1 ;; c <~ ld p 2 ;; d <~ ld p 3 ;; ret (a, b, c, d).
(** three_d.c:221-229: the coefficients C\[s\]\[nu\]\[m\] of one row *)
Definition c_row_3d (coeffs : ptr) (index : nat) : M coeff3d_row :=
  l <~ fill 2 (fun s => fill NU_MAX (fun nu => fill M_MAX (fun m => ld_poly4 (shift coeffs ((((index * 2 + s) * NU_MAX + nu) * M_MAX + m) * 4))))) ;;
  ret (fun sine nu m => nth m (nth nu (nth (if sine : bool then 1%nat else 0%nat) l []) []) (0, 0, 0, 0)).
(** three_d.c:200-237 potential_3d_derivs *)
Definition c_potential_3d_derivs (point zs coeffs : ptr) (N_z : nat) : M R :=
  p <~ ld3 point ;; row <~ c_table_row (vz p) zs N_z ;;
  match row with
  | None => ret 0
  | Some (index, z_) =>
      C <~ c_row_3d coeffs index ;;
      ret (sum_nu_m (potential3d_term (fun nu m => cubic_at (C false nu m) z_) (fun nu m => cubic_at (C true nu m) z_)
                       (norm_2d (vx p) (vy p)) (PathModel.atan2 (vy p) (vx p))))
  end.
(** three_d.c:240-300: the value of the field from the row of coefficients *)
Definition field_of_row (p : vec3) (C : coeff3d_row) (z_ : R) : vec3 :=
  let A nu m := cubic_at (C false nu m) z_ in let B nu m := cubic_at (C true nu m) z_ in
  let Adiff nu m := cubic_diff (C false nu m) z_ in let Bdiff nu m := cubic_diff (C true nu m) z_ in
  let r := norm_2d (vx p) (vy p) in let phi := PathModel.atan2 (vy p) (vx p) in
  if Rlt_dec r MIN_DISTANCE_AXIS then V3 (- A 0%nat 1%nat) (- B 0%nat 1%nat) (- Adiff 0%nat 0%nat)
  else V3 (- sum_nu_m (fun nu m => fst (field3d_term A B r phi (vx p) (vy p) nu m)))
          (- sum_nu_m (fun nu m => snd (field3d_term A B r phi (vx p) (vy p) nu m)))
          (- sum_nu_m (fun nu m => (Adiff nu m * cos (INR m * phi) + Bdiff nu m * sin (INR m * phi)) * r ^ (2 * nu + m))).
Definition c_field_3d_derivs (point field zs coeffs : ptr) (N_z : nat) : M unit :=
  p <~ ld3 point ;; st3 field vzero ;;; row <~ c_table_row (vz p) zs N_z ;;
  match row with None => ret tt | Some (index, z_) => C <~ c_row_3d coeffs index ;; st3 field (field_of_row p C z_) end.

(** ** Intersection with a plane *)
(** tracing.c:371-411; a row of positions is (x, y, z, vx, vy, vz).  [i] runs down from N_p - 2. *)
Definition ld_at (p : ptr) (i : Z) : M vec3 :=
  x <~ load Float64 p i ;; y <~ load Float64 p (i + 1) ;; z <~ load Float64 p (i + 2) ;; ret (V3 x y z).
Fixpoint c_plane_loop (p0 normal : vec3) (positions result : ptr) (i : nat) (prev_kappa : R) : M bool :=
  match i with
  | O => ret false
  | S i' =>
      p <~ ld3 (shift positions (6 * i')) ;;
      let k := TracingModel.kappa p0 normal p in
      if Bool.eqb (TracingModel.ltb 0 k) (TracingModel.ltb 0 prev_kappa) then c_plane_loop p0 normal positions result i' k
      else let diff := k - prev_kappa in
           for_each 6 (fun c =>
             u <~ ld positions (6 * S i' + c) ;; v <~ ld positions (6 * i' + c) ;;
             st result c (k / diff * u + - prev_kappa / diff * v)) ;;; ret true
  end.
Definition c_plane_intersection (p0 normal positions : ptr) (N_p : nat) (result : ptr) : M bool :=
  a <~ ld3 p0 ;; n <~ ld3 normal ;;
  p <~ ld_at positions (6 * (Z.of_nat N_p - 1)) ;;
  c_plane_loop a n positions result (N_p - 1) (TracingModel.kappa a n p).

(** ** The Python functions of backend/__init__.py *)
(** views: a\[i\] and a\[:n\] *)
Definition row (a : ndarray) (i : nat) : M ndarray :=
  match nd_shape a, nd_strides a with
  | d :: sh, s :: ss =>
      if (i <? d)%nat then ret (mkarray (mkptr (p_buffer (nd_base a)) (p_offset (nd_base a) + s * Z.of_nat i)) sh ss (nd_dtype a))
      else raise IndexError
  | _, _ => raise IndexError
  end.
Definition first (n : nat) (a : ndarray) : M ndarray :=
  match nd_shape a with
  | d :: sh => ret (mkarray (nd_base a) (Nat.min n d :: sh) (nd_strides a) (nd_dtype a))
  | [] => raise IndexError
  end.
(** np.all(a\[:, :, 1\] == 0.) for a three dimensional array *)
Definition middle_zero (a : ndarray) : M bool := fun h =>
  match nd_shape a with
  | [n; m; d] =>
      if (1 <? d)%nat then
        Done (forallb (fun idx => match idx with [_; _; c] => negb (c =? 1)%nat || (if Req_EM_T (item h a idx) 0 then true else false) | _ => true end)
                (indices (nd_shape a))) h
      else Raises IndexError
  | _ => Raises IndexError
  end.

(** backend/__init__.py:239-242 normal_2d *)
Definition normal_2d_py (p1 p2 : ndarray) : M ndarray :=
  normal <~ np_zeros [2%nat] ;;
  a <~ pass v2 p1 ;; b <~ pass v2 p2 ;; n <~ pass v2 normal ;; c_normal_2d a b n ;;; ret normal.
(** backend/__init__.py:233-237 higher_order_normal_radial; the assert on the length of the result is omitted.  vertices\[i, :2\] *)
Definition higher_order_normal_radial_py (alpha : R) (vertices : ndarray) : M (R * R) :=
  let view i := r <~ row vertices i ;; first 2 r in
  a <~ view 0%nat ;; b <~ view 2%nat ;; c <~ view 3%nat ;; d <~ view 1%nat ;;
  a <~ pass v2 a ;; b <~ pass v2 b ;; c <~ pass v2 c ;; d <~ pass v2 d ;; c_higher_order_normal_radial alpha a b c d.
(** backend/__init__.py:250-253 normal_3d *)
Definition normal_3d_py (tri : ndarray) : M ndarray :=
  normal <~ np_zeros [3%nat] ;;
  t <~ pass (ByShape [3%nat; 3%nat] Float64) tri ;; n <~ pass v3 normal ;; c_normal_3d t n ;;; ret normal.
(** backend/__init__.py:304-312 position_and_jacobian_3d *)
Definition position_and_jacobian_3d_py (alpha beta : R) (triangle : ndarray) : M (R * ndarray) :=
  assertM (has_shape triangle [3%nat; 3%nat]) ;;;
  pos <~ np_zeros [3%nat] ;;
  t <~ pass (arr 2) triangle ;; p <~ pass v3 pos ;; jac <~ c_position_and_jacobian_3d alpha beta t p ;; ret (jac, pos).
(** backend/__init__.py:315-328 position_and_jacobian_radial; the assert that the second coordinate of three-vectors vanishes is the [middle] test *)
Definition position_and_jacobian_radial_py (alpha : R) (v1 v2_ v3_ v4 : ndarray) : M (R * R * R) :=
  let two_or_three v := has_shape v [2%nat] || has_shape v [3%nat] in
  let flat v := fun h => Done (has_shape v [2%nat] || (if Req_EM_T (item h v [1%nat]) 0 then true else false)) h in
  assertM (two_or_three v1) ;;; assertM (two_or_three v2_) ;;; assertM (two_or_three v3_) ;;; assertM (two_or_three v4) ;;;
  f1 <~ flat v1 ;; f2 <~ flat v2_ ;; f3 <~ flat v3_ ;; f4 <~ flat v4 ;; assertM (f1 && f2 && f3 && f4) ;;;
  a <~ first 2 v1 ;; b <~ first 2 v2_ ;; c <~ first 2 v3_ ;; d <~ first 2 v4 ;;
  a <~ pass v2 a ;; b <~ pass v2 b ;; c <~ pass v2 c ;; d <~ pass v2 d ;; c_position_and_jacobian_radial alpha a b c d.
(** backend/__init__.py:621-625 triangle_areas *)
Definition triangle_areas_py (triangles : ndarray) : M ndarray :=
  N <~ py_len triangles ;; assertM (has_shape triangles [N; 3%nat; 3%nat]) ;;;
  out <~ np_zeros [N] ;;
  t <~ pass (arr 3) triangles ;; o <~ pass (arr 1) out ;; c_triangle_areas t o N ;;; ret out.
(** backend/__init__.py:426-429 combine_elec_magnetic_field *)
Definition combine_elec_magnetic_field_py (vel elec mag current : ndarray) : M ndarray :=
  result <~ np_zeros [3%nat] ;;
  v <~ pass v3 vel ;; e <~ pass v3 elec ;; m <~ pass v3 mag ;; c <~ pass v3 current ;; r <~ pass v3 result ;;
  c_combine_elec_magnetic_field v e m c r ;;; ret result.

(** backend/__init__.py:402-406 potential_radial *)
Definition potential_radial_py (point charges jac pos : ndarray) : M R :=
  assertM (has_shape point [3%nat]) ;;;
  N <~ py_len charges ;; assertM (has_shape jac [N; N_QUAD_2D]) ;;; assertM (has_shape pos [N; N_QUAD_2D; 2%nat]) ;;;
  point <~ astype_float point ;;
  p <~ pass v3 point ;; q <~ pass (arr 1) charges ;; j <~ pass (arr 2) jac ;; x <~ pass (arr 3) pos ;;
  c_potential_radial p q j x N.
(** backend/__init__.py:416-424 field_radial *)
Definition field_radial_py (point charges jac pos : ndarray) : M ndarray :=
  assertM (has_shape point [3%nat]) ;;;
  N <~ py_len charges ;; assertM (has_shape jac [N; N_QUAD_2D]) ;;; assertM (has_shape pos [N; N_QUAD_2D; 2%nat]) ;;;
  assertM (has_shape charges [N]) ;;;
  field <~ np_zeros [3%nat] ;; point <~ astype_float point ;;
  p <~ pass v3 point ;; f <~ pass v3 field ;; q <~ pass (arr 1) charges ;; j <~ pass (arr 2) jac ;; x <~ pass (arr 3) pos ;;
  c_field_radial p f q j x N ;;; ret field.
(** backend/__init__.py:459-466 potential_3d *)
Definition potential_3d_py (point charges jac pos : ndarray) : M R :=
  assertM (has_shape point [3%nat]) ;;;
  N <~ py_len charges ;; assertM (has_shape charges [N]) ;;;
  assertM (has_shape jac [N; N_TRIANGLE_QUAD]) ;;; assertM (has_shape pos [N; N_TRIANGLE_QUAD; 3%nat]) ;;;
  point <~ astype_float point ;;
  p <~ pass v3 point ;; q <~ pass (arr 1) charges ;; j <~ pass (arr 2) jac ;; x <~ pass (arr 3) pos ;;
  c_potential_3d p q j x N.
(** backend/__init__.py:474-482 field_3d *)
Definition field_3d_py (point charges jac pos : ndarray) : M ndarray :=
  N <~ py_len charges ;; assertM (has_shape point [3%nat]) ;;;
  assertM (has_shape jac [N; N_TRIANGLE_QUAD]) ;;; assertM (has_shape pos [N; N_TRIANGLE_QUAD; 3%nat]) ;;;
  field <~ np_zeros [3%nat] ;; point <~ astype_float point ;;
  p <~ pass v3 point ;; f <~ pass v3 field ;; q <~ pass (arr 1) charges ;; j <~ pass (arr 2) jac ;; x <~ pass (arr 3) pos ;;
  c_field_3d p f q j x N ;;; ret field.
(** backend/__init__.py:508-519 current_field; the point is not converted *)
Definition current_field_py (point currents jac pos : ndarray) : M ndarray :=
  assertM (has_shape point [3%nat]) ;;;
  N <~ py_len currents ;; assertM (has_shape currents [N]) ;;;
  assertM (has_shape jac [N; N_TRIANGLE_QUAD]) ;;; assertM (has_shape pos [N; N_TRIANGLE_QUAD; 3%nat]) ;;;
  flat <~ middle_zero pos ;; assertM flat ;;;
  result <~ np_zeros [3%nat] ;;
  p <~ pass v3 point ;; f <~ pass v3 result ;; q <~ pass (arr 1) currents ;; j <~ pass (arr 2) jac ;; x <~ pass (arr 3) pos ;;
  c_current_field p f q j x N ;;; ret result.
(** backend/__init__.py:493-501 current_potential_axial *)
Definition current_potential_axial_py (z : R) (currents jac pos : ndarray) : M R :=
  N <~ py_len currents ;; assertM (has_shape currents [N]) ;;;
  assertM (has_shape jac [N; N_TRIANGLE_QUAD]) ;;; assertM (has_shape pos [N; N_TRIANGLE_QUAD; 3%nat]) ;;;
  flat <~ middle_zero pos ;; assertM flat ;;;
  q <~ pass (arr 1) currents ;; j <~ pass (arr 2) jac ;; x <~ pass (arr 3) pos ;;
  c_current_potential_axial z q j x N.
(** backend/__init__.py:392-400 axial_derivatives_radial *)
Definition axial_derivatives_radial_py (z charges jac pos : ndarray) : M ndarray :=
  derivs <~ np_zeros [size (nd_shape z); DERIV_2D_MAX] ;;
  N <~ py_len charges ;; assertM (has_shape jac [N; N_QUAD_2D]) ;;; assertM (has_shape pos [N; N_QUAD_2D; 2%nat]) ;;;
  assertM (has_shape charges [N]) ;;; N_z <~ py_len z ;;
  d <~ pass (arr 2) derivs ;; q <~ pass (arr 1) charges ;; j <~ pass (arr 2) jac ;; x <~ pass (arr 3) pos ;; zp <~ pass (arr 1) z ;;
  c_axial_derivatives axial_derivatives_radial_ring N_QUAD_2D 2 1 d q j x N zp N_z ;;; ret derivs.
(** backend/__init__.py:521-532 current_axial_derivatives_radial *)
Definition current_axial_derivatives_radial_py (z currents jac pos : ndarray) : M ndarray :=
  N_z <~ py_len z ;; N <~ py_len currents ;;
  assertM (has_shape z [N_z]) ;;; assertM (has_shape currents [N]) ;;;
  assertM (has_shape jac [N; N_TRIANGLE_QUAD]) ;;; assertM (has_shape pos [N; N_TRIANGLE_QUAD; 3%nat]) ;;;
  derivs <~ np_zeros [size (nd_shape z); DERIV_2D_MAX] ;;
  d <~ pass (arr 2) derivs ;; q <~ pass (arr 1) currents ;; j <~ pass (arr 2) jac ;; x <~ pass (arr 3) pos ;; zp <~ pass (arr 1) z ;;
  c_axial_derivatives current_axial_derivatives_radial_ring N_TRIANGLE_QUAD 3 2 d q j x N zp N_z ;;; ret derivs.
(** backend/__init__.py:444-457 axial_coefficients_3d *)
Definition axial_coefficients_3d_py (charges jac pos z : ndarray) : M ndarray :=
  N <~ py_len charges ;; assertM (has_shape jac [N; N_TRIANGLE_QUAD]) ;;; assertM (has_shape pos [N; N_TRIANGLE_QUAD; 3%nat]) ;;;
  N_z <~ py_len z ;; out <~ np_zeros [N_z; 2%nat; NU_MAX; M_MAX] ;;
  tcos <~ np_zeros [N; N_TRIANGLE_QUAD; M_MAX] ;; tsin <~ np_zeros [N; N_TRIANGLE_QUAD; M_MAX] ;;
  q <~ pass (arr 1) charges ;; j <~ pass (arr 2) jac ;; x <~ pass (arr 3) pos ;; tc <~ pass (arr 3) tcos ;; ts <~ pass (arr 3) tsin ;;
  zp <~ pass (arr 1) z ;; o <~ pass (arr 4) out ;;
  c_axial_coefficients_3d q j x tc ts N zp o N_z ;;; ret out.

(** backend/__init__.py:412-414 charge_radial *)
Definition charge_radial_py (vertices : ndarray) (charge : R) : M R :=
  N <~ py_len vertices ;; assertM (has_shape vertices [N; 3%nat]) ;;;
  v <~ pass (arr 2) vertices ;; c_charge_radial v charge.
(** backend/__init__.py:535-545 fill_jacobian_buffer_radial *)
Definition fill_jacobian_buffer_radial_py (vertices : ndarray) : M (ndarray * ndarray) :=
  N <~ py_len vertices ;; assertM (has_shape vertices [N; 4%nat; 3%nat]) ;;;
  flat <~ middle_zero vertices ;; assertM flat ;;;
  jac <~ np_zeros [N; N_QUAD_2D] ;; pos <~ np_zeros [N; N_QUAD_2D; 2%nat] ;;
  j <~ pass (arr 2) jac ;; x <~ pass (arr 3) pos ;; v <~ pass (arr 3) vertices ;;
  c_fill_jacobian_buffer_radial j x v N ;;; ret (jac, pos).
(** backend/__init__.py:584-592 fill_jacobian_buffer_3d *)
Definition fill_jacobian_buffer_3d_py (vertices : ndarray) : M (ndarray * ndarray) :=
  N <~ py_len vertices ;; assertM (has_shape vertices [N; 3%nat; 3%nat]) ;;;
  jac <~ np_zeros [N; N_TRIANGLE_QUAD] ;; pos <~ np_zeros [N; N_TRIANGLE_QUAD; 3%nat] ;;
  j <~ pass (arr 2) jac ;; x <~ pass (arr 3) pos ;; v <~ pass (arr 3) vertices ;;
  c_fill_jacobian_buffer_3d j x v N ;;; ret (jac, pos).
(** matrix.shape\[0\] == N and matrix.shape\[1\] == N; an IndexError for a matrix of fewer than two dimensions *)
Definition square (matrix : ndarray) (N : nat) : M unit :=
  match nd_shape matrix with
  | a :: b :: _ => assertM ((a =? N)%nat && (b =? N)%nat)
  | [a] => if (a =? N)%nat then raise IndexError else raise AssertionError
  | [] => raise IndexError
  end.
(** backend/__init__.py:571-582 fill_matrix_radial *)
Definition fill_matrix_radial_py (matrix lines types values jac pos : ndarray) (start end_ : nat) : M unit :=
  N <~ py_len lines ;; flat <~ middle_zero lines ;; assertM flat ;;;
  square matrix N ;;; assertM (has_shape lines [N; 4%nat; 3%nat]) ;;;
  assertM (has_shape types [N]) ;;; assertM (has_shape values [N]) ;;;
  assertM (has_shape jac [N; N_QUAD_2D]) ;;; assertM (has_shape pos [N; N_QUAD_2D; 2%nat]) ;;;
  assertM ((start <? N)%nat && (end_ <? N)%nat && (start <? end_)%nat) ;;;
  m <~ pass (arr 2) matrix ;; l <~ pass (arr 3) lines ;; t <~ pass (ByDim 1 UInt8) types ;; v <~ pass (arr 1) values ;;
  j <~ pass (arr 2) jac ;; x <~ pass (arr 3) pos ;;
  c_fill_matrix_radial m l t v j x N N start end_.
(** backend/__init__.py:596-606 fill_matrix_3d *)
Definition fill_matrix_3d_py (integrate : (R -> R) -> R -> R -> R) (matrix triangles types values jac pos : ndarray) (start end_ : nat) : M unit :=
  N <~ py_len triangles ;;
  square matrix N ;;; assertM (has_shape triangles [N; 3%nat; 3%nat]) ;;;
  assertM (has_shape types [N]) ;;; assertM (has_shape values [N]) ;;;
  assertM (has_shape jac [N; N_TRIANGLE_QUAD]) ;;; assertM (has_shape pos [N; N_TRIANGLE_QUAD; 3%nat]) ;;;
  assertM ((start <? N)%nat && (end_ <? N)%nat && (start <=? end_)%nat) ;;;
  m <~ pass (arr 2) matrix ;; l <~ pass (arr 3) triangles ;; t <~ pass (ByDim 1 UInt8) types ;; v <~ pass (arr 1) values ;;
  j <~ pass (arr 2) jac ;; x <~ pass (arr 3) pos ;;
  c_fill_matrix_3d integrate m l t v j x N N start end_.

(** len(z)-1 in a comparison of shapes: no shape matches a negative number *)
Definition one_less (a : ndarray) (N_z : nat) (rest : list nat) : bool := (1 <=? N_z)%nat && has_shape a ((N_z - 1)%nat :: rest).
(** backend/__init__.py:408-410 potential_radial_derivs *)
Definition potential_radial_derivs_py (point z coeffs : ndarray) : M R :=
  N_z <~ py_len z ;; assertM (one_less coeffs N_z [DERIV_2D_MAX; 6%nat]) ;;;
  point <~ astype_float point ;;
  p <~ pass v3 point ;; zp <~ pass (arr 1) z ;; c <~ pass (arr 3) coeffs ;; c_potential_radial_derivs p zp c N_z.
(** backend/__init__.py:431-436 field_radial_derivs *)
Definition field_radial_derivs_py (point z coeffs : ndarray) : M ndarray :=
  assertM (has_shape point [3%nat]) ;;;
  N_z <~ py_len z ;; assertM (one_less coeffs N_z [DERIV_2D_MAX; 6%nat]) ;;;
  field <~ np_zeros [3%nat] ;; point <~ astype_float point ;;
  p <~ pass v3 point ;; f <~ pass v3 field ;; zp <~ pass (arr 1) z ;; c <~ pass (arr 3) coeffs ;;
  c_field_radial_derivs p f zp c N_z ;;; ret field.
(** backend/__init__.py:468-472 potential_3d_derivs *)
Definition potential_3d_derivs_py (point z coeffs : ndarray) : M R :=
  N_z <~ py_len z ;; assertM (one_less coeffs N_z [2%nat; NU_MAX; M_MAX; 4%nat]) ;;; assertM (has_shape point [3%nat]) ;;;
  point <~ astype_float point ;;
  p <~ pass v3 point ;; zp <~ pass (arr 1) z ;; c <~ pass (arr 5) coeffs ;; c_potential_3d_derivs p zp c N_z.
(** backend/__init__.py:484-489 field_3d_derivs; the function has no return statement, so it returns None *)
Definition field_3d_derivs_py (point z coeffs : ndarray) : M (option ndarray) :=
  assertM (has_shape point [3%nat]) ;;;
  N_z <~ py_len z ;; assertM (one_less coeffs N_z [2%nat; NU_MAX; M_MAX; 4%nat]) ;;;
  field <~ np_zeros [3%nat] ;; point <~ astype_float point ;;
  p <~ pass v3 point ;; f <~ pass v3 field ;; zp <~ pass (arr 1) z ;; c <~ pass (arr 5) coeffs ;;
  c_field_3d_derivs p f zp c N_z ;;; ret None.
(** backend/__init__.py:608-619 plane_intersection *)
Definition plane_intersection_py (positions p0 normal : ndarray) : M ndarray :=
  assertM (has_shape p0 [3%nat]) ;;; assertM (has_shape normal [3%nat]) ;;;
  N <~ py_len positions ;; assertM (has_shape positions [N; 6%nat]) ;;;
  result <~ np_zeros [6%nat] ;;
  p <~ pass v3 p0 ;; n <~ pass v3 normal ;; x <~ pass (arr 2) positions ;; r <~ pass (ByShape [6%nat] Float64) result ;;
  found <~ c_plane_intersection p n x N r ;;
  if found : bool then ret result else raise ValueError.
