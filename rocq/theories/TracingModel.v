(** Tracing of electrons (traceon/tracing.py, traceon/focus.py, backend/tracing.c, backend/utilities_3d.c,
    the wrappers of backend/__init__.py) over the reals: rounding is not modelled. *)
From Coq Require Import Reals.
From Verif Require Import Base Vec GeomModel FieldModel SeriesModel DispatchModel.
Local Open Scope R_scope.

(** double[6]: position and velocity *)
Record state := mkstate { s_pos : vec3; s_vel : vec3 }.
Definition sadd (a b : state) : state := mkstate (vadd (s_pos a) (s_pos b)) (vadd (s_vel a) (s_vel b)).
Definition sscale (k : R) (a : state) : state := mkstate (vscale k (s_pos a)) (vscale k (s_vel a)).
Definition szero : state := mkstate vzero vzero.

(** backend/definitions.c:29, 31 *)
Definition EM : R := -175882001077.2163.
Definition MU_0 : R := 1.25663706212e-06.

(** backend/utilities_3d.c:140-164 combine_elec_magnetic_field *)
Definition combine_elec_magnetic_field (velocity elec mag current : vec3) : vec3 :=
  let total_mag := vscale MU_0 (vadd mag current) in vadd elec (cross velocity total_mag).

(** A field function of the tracer; it can read outside of a coefficient table. *)
Definition field_fun := state -> result vec3.

(** backend/tracing.c:9-16 *)
Definition A_coeff : list R := [0; 2 / 9; 1 / 3; 3 / 4; 1; 5 / 6].
Definition B2 : list R := [2 / 9].
Definition B3 : list R := [1 / 12; 1 / 4].
Definition B4 : list R := [69 / 128; -243 / 128; 135 / 64].
Definition B5 : list R := [-17 / 12; 27 / 4; -27 / 5; 16 / 15].
Definition B6 : list R := [65 / 432; -5 / 16; 13 / 16; 4 / 27; 5 / 144].
Definition CH : list R := [47 / 450; 0; 12 / 25; 32 / 225; 1 / 30; 6 / 25].
Definition CT : list R := [-1 / 150; 0; 3 / 100; -16 / 75; -1 / 20; 6 / 25].

(** the inner loops of tracing.c:21-32, 76-87, 92: [start + sum_j c_j k_j] *)
Definition accumulate (start : state) (c : list R) (ks : list state) : state :=
  fold_left (fun acc ck => sadd acc (sscale (fst ck) (snd ck))) (combine c ks) start.
(** tracing.c:34-46 produce_new_k *)
Definition produce_new_k (field : field_fun) (h : R) (ys : state) : result state :=
  f <- field ys ;; Ok (mkstate (vscale h (s_vel ys)) (vscale (h * EM) f)).
(** tracing.c:70-73, the six stages *)
Fixpoint stages (field : field_fun) (h : R) (y : state) (bs : list (list R)) (ks : list state) : result (list state) :=
  match bs with
  | [] => Ok ks
  | b :: bs => k <- produce_new_k field h (accumulate y b ks) ;; stages field h y bs (ks ++ [k])
  end.
Definition rk_stages (field : field_fun) (h : R) (y : state) : result (list state) := stages field h y [[]; B2; B3; B4; B5; B6] [].
(** tracing.c:76-89 *)
Definition max_abs (v : vec3) : R := Rmax (Rmax (Rabs (vx v)) (Rabs (vy v))) (Rabs (vz v)).
Definition step_error (h : R) (ks : list state) : R :=
  let err := accumulate szero CT ks in max_abs (s_pos err) + h * max_abs (s_vel err).
(** tracing.c:92-94 *)
Definition step_state (y : state) (ks : list state) : state := accumulate y CH ks.

(** tracing.c:102, [fmin(0.9 * h * pow(atol / error, 0.2), hmax)]: the quotient is infinite or not a number for
    an error of zero, pow is not a number below zero, and fmin ignores numbers that are not one *)
Definition next_step (h hmax atol error : R) : R :=
  if Req_EM_T error 0 then hmax
  else let q := atol / error in
       if Rlt_dec q 0 then hmax else if Req_EM_T q 0 then Rmin 0 hmax else Rmin (0.9 * h * Rpower q 0.2) hmax.

(** bounds[3][2] *)
Record box := mkbox { b_lo : vec3; b_hi : vec3 }.
Definition leb (a b : R) : bool := if Rle_dec a b then true else false.
Definition ltb (a b : R) : bool := if Rlt_dec a b then true else false.
(** tracing.c:65-67 *)
Definition within (b : box) (p : vec3) : bool :=
  leb (vx (b_lo b)) (vx p) && leb (vx p) (vx (b_hi b)) && leb (vy (b_lo b)) (vy p) && leb (vy p) (vy (b_hi b))
  && leb (vz (b_lo b)) (vz p) && leb (vz p) (vz (b_hi b)).

Notation sample := (R * state)%type.
Definition TRACING_STEP_MAX : R := 0.01.

(** tracing.c:65-103, the loop: the samples after the current one.  [fuel] bounds the number of iterations;
    [N] samples are in the block of [block] places. *)
Fixpoint trace_loop (fuel : nat) (block : nat) (field : field_fun) (bounds : box) (atol hmax : R) (N : nat) (t : R) (y : state) (h : R) : result (list sample) :=
  match fuel with
  | O => Err OutOfFuel
  | S fuel =>
      if within bounds (s_pos y) then
        ks <- rk_stages field h y ;;
        let error := step_error h ks in
        let h' := next_step h hmax atol error in
        if Rle_dec error atol then
          let y' := step_state y ks in
          let t' := t + h in
          if (N + 1 =? block)%nat then Ok [(t', y')]
          else rest <- trace_loop fuel block field bounds atol hmax (N + 1) t' y' h' ;; Ok ((t', y') :: rest)
        else trace_loop fuel block field bounds atol hmax N t y h'
      else Ok []
  end.
(** tracing.c:49-106 trace_particle.  A particle at rest (hmax infinite) is not modelled: ValueError. *)
Definition trace_particle (fuel block : nat) (field : field_fun) (bounds : box) (atol : R) (t : R) (y : state) : result (list sample) :=
  let V := norm (s_vel y) in
  if Req_EM_T V 0 then Err ValueError
  else let hmax := TRACING_STEP_MAX / V in
       rest <- trace_loop fuel block field bounds atol hmax 1 t y hmax ;; Ok ((t, y) :: rest).
(** backend/__init__.py:255-291 trace_particle_wrapper; [first] if no block is stored yet *)
Fixpoint trace_blocks (fuel inner block : nat) (field : field_fun) (bounds : box) (atol : R) (first : bool) (t : R) (y : state) : result (list sample) :=
  match fuel with
  | O => Err OutOfFuel
  | S fuel =>
      samples <- trace_particle inner block field bounds atol t y ;;
      let kept := if first then samples else tl samples in
      if (length samples =? block)%nat then
        final <- np_get kept (length kept - 1) ;;
        rest <- trace_blocks fuel inner block field bounds atol false (fst final) (snd final) ;; Ok (kept ++ rest)
      else Ok kept
  end.
Definition TRACING_BLOCK_SIZE : nat := Z.to_nat 100000.
Definition trace_particle_wrapper (fuel inner : nat) (field : field_fun) (bounds : box) (atol : R) (position velocity : vec3) : result (list sample) :=
  trace_blocks fuel inner TRACING_BLOCK_SIZE field bounds atol true 0 (mkstate position velocity).

(** tracing.c:111-147 field_radial_traceable: only x and y are compared with the field bounds *)
Definition field_radial_traceable (f : bem) : field_fun := fun s =>
  let p := s_pos s in
  let inside := match b_bounds f with
    | None => true
    | Some (lo, hi) => ltb (vx lo) (vx p) && ltb (vx p) (vx hi) && ltb (vy lo) (vy p) && ltb (vy p) (vy hi)
    end in
  Ok (if inside then combine_elec_magnetic_field (s_vel s) (field_radial p (b_elec f)) (field_radial p (b_mag f)) (current_field p (b_cur f)) else vzero).
(** tracing.c:193-217 field_3d_traceable *)
Definition field_3d_traceable (bounds : option (vec3 * vec3)) (f : bem) : field_fun := fun s =>
  let p := s_pos s in
  let inside := match bounds with
    | None => true
    | Some (lo, hi) => ltb (vx lo) (vx p) && ltb (vx p) (vx hi) && ltb (vy lo) (vy p) && ltb (vy p) (vy hi) && ltb (vz lo) (vz p) && ltb (vz p) (vz hi)
    end in
  Ok (if inside then combine_elec_magnetic_field (s_vel s) (field_3d p (b_elec f)) (field_3d p (b_mag f)) vzero else vzero).
(** tracing.c:168-180 field_radial_derivs_traceable *)
Definition field_radial_derivs_traceable (a : axial) : field_fun := fun s =>
  e <- axial_field true a (s_pos s) ;; m <- axial_field false a (s_pos s) ;; Ok (combine_elec_magnetic_field (s_vel s) e m vzero).

(** scipy.constants (CODATA 2018) *)
Definition e_charge : R := 1.602176634e-19.
Definition m_e : R := 9.1093837015e-31.
(** tracing.py:24-51 velocity_vec *)
Definition velocity_vec (eV : R) (direction : vec3) : result vec3 :=
  _ <- py_assert (ltb 0 eV) ;;
  if Req_EM_T (norm direction) 0 then Err ValueError else Ok (vscale (/ norm direction) (vscale eV direction)).
(** tracing.py:53-88 *)
Definition velocity_vec_spherical (eV theta phi : R) : result vec3 := velocity_vec eV (V3 (sin theta * cos phi) (sin theta * sin phi) (cos theta)).
Definition velocity_vec_xz_plane (eV angle : R) (downward : bool) : result vec3 :=
  velocity_vec eV (V3 (sin angle) 0 ((if downward then -1 else 1) * cos angle)).
(** tracing.py:98-104 _convert_velocity_to_SI *)
Definition convert_velocity_to_SI (velocity : vec3) : result vec3 :=
  let speed_eV := norm velocity in
  if Req_EM_T speed_eV 0 then Err ValueError
  else let speed := sqrt (2 * speed_eV * e_charge / m_e) in Ok (vscale speed (vscale (/ speed_eV) velocity)).

(** tracing.py:150-177, solver.py:839-840, 948-949: get_tracer and Tracer.__call__; the tracer of a
    three-dimensional field does not pass the bounds of the field on *)
Definition tracer_field (f : bem) : field_fun :=
  match b_class f with FieldRadialBEM => field_radial_traceable f | Field3D_BEM => field_3d_traceable None f end.
Definition tracer_call (fuel inner : nat) (f : bem) (bounds : box) (atol : R) (position velocity : vec3) : result (list sample) :=
  v <- convert_velocity_to_SI velocity ;; trace_particle_wrapper fuel inner (tracer_field f) bounds atol position v.
(** TracerRadialAxial *)
Definition axial_tracer_call (fuel inner : nat) (a : axial) (bounds : box) (atol : R) (position velocity : vec3) : result (list sample) :=
  v <- convert_velocity_to_SI velocity ;; trace_particle_wrapper fuel inner (field_radial_derivs_traceable a) bounds atol position v.

(** tracing.c:371-411 plane_intersection: distance to the plane with a sign *)
Definition kappa (p0 normal p : vec3) : R :=
  (vz normal * vz p0 - vz p * vz normal + vy normal * vy p0 - vy p * vy normal + vx normal * vx p0 - vx p * vx normal) / norm normal.
(** the loop; [next] is positions[i+1] and the list holds positions[i], positions[i-1], ... *)
Fixpoint plane_loop (p0 normal : vec3) (next : state) (l : list state) : option state :=
  match l with
  | [] => None
  | s :: l =>
      let k := kappa p0 normal (s_pos s) in
      let prev_k := kappa p0 normal (s_pos next) in
      if Bool.eqb (ltb 0 k) (ltb 0 prev_k) then plane_loop p0 normal s l
      else let diff := k - prev_k in
           let factor := - prev_k / diff in
           let prev_factor := k / diff in
           Some (sadd (sscale prev_factor next) (sscale factor s))
  end.
(** backend/__init__.py:608-619; the C code asserts that there are two samples *)
Definition plane_intersection (positions : list state) (p0 normal : vec3) : result state :=
  match rev positions with
  | last :: ((_ :: _) as before) => match plane_loop p0 normal last before with Some s => Ok s | None => Err ValueError end
  | _ => Err AssertionError
  end.
(** tracing.py:208-269 *)
Definition xy_plane_intersection (positions : list state) (z : R) := plane_intersection positions (V3 0 0 z) (V3 0 0 1).
Definition xz_plane_intersection (positions : list state) (y : R) := plane_intersection positions (V3 0 y 0) (V3 0 1 0).
Definition yz_plane_intersection (positions : list state) (x : R) := plane_intersection positions (V3 x 0 0) (V3 1 0 0).
Definition axis_intersection (positions : list state) : result R := s <- yz_plane_intersection positions 0 ;; Ok (vz (s_pos s)).
