(** Tracing through the compiled backend, on memory (MemModel): backend/tracing.c, the functions trace_particle... of
    traceon/backend/__init__.py and the tracers of traceon/tracing.py.  The arithmetic is that of TracingModel.

    Local arrays of C functions are new buffers; they are not removed when the function returns.  The contents of a local array
    that is not initialised are [junk].  The lifetime of the copies that the structs of effective point charges may point to
    (backend/__init__.py:107-131) is not modelled: they stay. *)
From Coq Require Import Reals.
From Verif Require Import Base Vec GeomModel MemModel FieldModel SeriesModel Axial3DModel TracingModel BackendModel.
Local Open Scope R_scope.
Local Open Scope mem_scope.

(** a local array *)
Definition local (cells : list R) : M ptr := fun h => Done (mkptr (length h) 0) (h ++ [mkbuffer Float64 cells]).
(** double y\[6\] *)
Definition vals (s : state) : list R := [vx (s_pos s); vy (s_pos s); vz (s_pos s); vx (s_vel s); vy (s_vel s); vz (s_vel s)].
Definition ld_state (p : ptr) : M state := x <~ ld3 p ;; v <~ ld3 (shift p 3) ;; ret (mkstate x v).

(** typedef field_fun (tracing.c:18): position and velocity, result *)
Definition c_field_fun := ptr -> ptr -> M unit.
(** tracing.c:34-46 produce_new_k *)
Definition c_produce_new_k (field : c_field_fun) (h : R) (ys : state) : M state :=
  p <~ local (vals ys) ;; r <~ local [0; 0; 0] ;; field p r ;;; f <~ ld3 r ;;
  ret (mkstate (vscale h (s_vel ys)) (vscale (h * EM) f)).
(** tracing.c:70-73 *)
Fixpoint c_stages (field : c_field_fun) (h : R) (y : state) (bs : list (list R)) (ks : list state) : M (list state) :=
  match bs with
  | [] => ret ks
  | b :: bs => k <~ c_produce_new_k field h (accumulate y b ks) ;; c_stages field h y bs (ks ++ [k])
  end.
(** tracing.c:65-103, the loop; [N] is the number of samples stored.  The result is the value returned by the C function. *)
Fixpoint c_trace_loop (fuel block : nat) (times positions : ptr) (field : c_field_fun) (bounds : box) (atol hmax : R) (N : nat) (y : state) (h : R) : M nat :=
  match fuel with
  | O => raise OutOfFuel
  | S fuel =>
      if within bounds (s_pos y) then
        ks <~ c_stages field h y [[]; B2; B3; B4; B5; B6] [] ;;
        let error := step_error h ks in
        let h' := next_step h hmax atol error in
        if Rle_dec error atol then
          let y' := step_state y ks in
          for_each 6 (fun i =>
            st positions (6 * N + i) (nth i (vals y') 0) ;;;
            t <~ ld times (N - 1) ;; st times N (t + h)) ;;;
          if (N + 1 =? block)%nat then ret (N + 1)%nat
          else c_trace_loop fuel block times positions field bounds atol hmax (N + 1) y' h'
        else c_trace_loop fuel block times positions field bounds atol hmax N y h'
      else ret N
  end.
(** tracing.c:49-106 trace_particle.  As in TracingModel a particle at rest is not modelled. *)
Definition c_trace_particle (fuel block : nat) (times positions : ptr) (field : c_field_fun) (bounds : ptr) (atol : R) : M nat :=
  y <~ ld_state positions ;;
  x0 <~ ld bounds 0 ;; x1 <~ ld bounds 1 ;; y0 <~ ld bounds 2 ;; y1 <~ ld bounds 3 ;; z0 <~ ld bounds 4 ;; z1 <~ ld bounds 5 ;;
  let V := norm (s_vel y) in
  if Req_EM_T V 0 then raise ValueError
  else let hmax := TRACING_STEP_MAX / V in
       c_trace_loop fuel block times positions field (mkbox (V3 x0 y0 z0) (V3 x1 y1 z1)) atol hmax 1 y hmax.

(** struct effective_point_charges_2d and _3d (definitions.c) *)
Record charge_struct := mkstruct { cs_charges : ptr; cs_jacobians : ptr; cs_positions : ptr; cs_N : nat }.
(** the comparison of the point with the field bounds, double bounds\[3\]\[2\], for the first [n] coordinates (tracing.c:121-122, 201-203); && does
    not evaluate its right side if the left one is false *)
Fixpoint c_inside_from (bounds point : ptr) (i n : nat) : M bool :=
  match n with
  | O => ret true
  | S n =>
      lo <~ ld bounds (2 * i) ;; x <~ ld point i ;;
      if ltb lo x then
        x <~ ld point i ;; hi <~ ld bounds (2 * i + 1) ;;
        if ltb x hi then c_inside_from bounds point (S i) n else ret false
      else ret false
  end.
Definition c_inside (n : nat) (bounds : option ptr) (point : ptr) : M bool :=
  match bounds with None => ret true | Some b => c_inside_from b point 0 n end.
(** tracing.c:108-147 field_radial_traceable *)
Definition c_field_radial_traceable (elec mag cur : charge_struct) (bounds : option ptr) : c_field_fun := fun point result =>
  inside <~ c_inside 2 bounds point ;;
  if inside : bool then
    e <~ local [0; 0; 0] ;; m <~ local [0; 0; 0] ;; c <~ local [0; 0; 0] ;;
    c_field_radial point e (cs_charges elec) (cs_jacobians elec) (cs_positions elec) (cs_N elec) ;;;
    c_field_radial point m (cs_charges mag) (cs_jacobians mag) (cs_positions mag) (cs_N mag) ;;;
    c_current_field point c (cs_charges cur) (cs_jacobians cur) (cs_positions cur) (cs_N cur) ;;;
    c_combine_elec_magnetic_field (shift point 3) e m c result
  else st3 result vzero.
(** tracing.c:193-217 field_3d_traceable *)
Definition c_field_3d_traceable (elec mag : charge_struct) (bounds : option ptr) : c_field_fun := fun point result =>
  inside <~ c_inside 3 bounds point ;;
  if inside : bool then
    e <~ local [0; 0; 0] ;; m <~ local [0; 0; 0] ;; c <~ local [0; 0; 0] ;;
    c_field_3d point e (cs_charges elec) (cs_jacobians elec) (cs_positions elec) (cs_N elec) ;;;
    c_field_3d point m (cs_charges mag) (cs_jacobians mag) (cs_positions mag) (cs_N mag) ;;;
    c_combine_elec_magnetic_field (shift point 3) e m c result
  else st3 result vzero.
Section Junk.
Variable junk : vec3.
Definition uninitialised : M ptr := local [vx junk; vy junk; vz junk].
(** tracing.c:168-180 field_radial_derivs_traceable *)
Definition c_field_radial_derivs_traceable (z elec mag : ptr) (N_z : nat) : c_field_fun := fun point field =>
  e <~ uninitialised ;; c_field_radial_derivs point e z elec N_z ;;;
  m <~ uninitialised ;; c_field_radial_derivs point m z mag N_z ;;;
  c <~ local [0; 0; 0] ;; c_combine_elec_magnetic_field (shift point 3) e m c field.
(** tracing.c:230-241 field_3d_derivs_traceable *)
Definition c_field_3d_derivs_traceable (z elec mag : ptr) (N_z : nat) : c_field_fun := fun point field =>
  e <~ uninitialised ;; c_field_3d_derivs point e z elec N_z ;;;
  m <~ uninitialised ;; c_field_3d_derivs point m z mag N_z ;;;
  c <~ local [0; 0; 0] ;; c_combine_elec_magnetic_field (shift point 3) e m c field.
End Junk.

(** ** backend/__init__.py *)
(** a\[from:to\] along the first axis, 0 <= from <= to *)
Definition slice (a : ndarray) (from to : nat) : ndarray :=
  match nd_shape a, nd_strides a with
  | d :: sh, s :: ss => mkarray (mkptr (p_buffer (nd_base a)) (p_offset (nd_base a) + s * Z.of_nat from)) ((Nat.min to d - from)%nat :: sh) (s :: ss) (nd_dtype a)
  | _, _ => a
  end.
(** a\[-1\] *)
Definition last_item (a : ndarray) : M R := fun h =>
  match nd_shape a with S n :: [] => Done (item h a [n]) h | _ => Raises IndexError end.
Definition last_row (a : ndarray) : M (list R) := fun h =>
  match nd_shape a with S n :: [6%nat] => Done (map (fun i => item h a [n; i]) (arange 6)) h | _ => Raises IndexError end.
(** np.concatenate *)
Definition concatenate (l : list ndarray) : M ndarray := fun h =>
  match l with
  | [] => Raises ValueError
  | a :: _ => new_array (fold_right Nat.add 0%nat (map (fun x => hd 0%nat (nd_shape x)) l) :: tl (nd_shape a)) Float64 (flat_map (contents h) l) h
  end.
(** the items of a new block of positions (lines 265-266, 282, 284-285) *)
Definition set_first_row (positions : ndarray) (row : list R) : M unit := for_each 6 (fun i => st (nd_base positions) i (nth i row 0)).
(** backend/__init__.py:268-285, the loop; [n] blocks are stored.  [fill] is fill_positions_fun. *)
Fixpoint trace_blocks_py (fuel block : nat) (fill : ndarray -> ndarray -> M nat) (times_blocks pos_blocks : list ndarray) (times positions : ndarray) : M (list ndarray * list ndarray) :=
  match fuel with
  | O => raise OutOfFuel
  | S fuel =>
      N <~ fill times positions ;;
      let from := match pos_blocks with [] => 0%nat | _ => 1%nat end in
      let P := slice positions from N in let T := slice times from N in
      let pos_blocks := pos_blocks ++ [P] in let times_blocks := times_blocks ++ [T] in
      if negb (N =? block)%nat then ret (times_blocks, pos_blocks)
      else times' <~ np_zeros [block] ;; positions' <~ np_zeros [block; 6%nat] ;;
           row <~ last_row P ;; set_first_row positions' row ;;;
           t <~ last_item T ;; st (nd_base times') 0 t ;;;
           trace_blocks_py fuel block fill times_blocks pos_blocks times' positions'
  end.
(** backend/__init__.py:255-291 trace_particle_wrapper *)
Definition trace_particle_wrapper_py (fuel block : nat) (position velocity : ndarray) (fill : ndarray -> ndarray -> M nat) : M (ndarray * ndarray) :=
  assertM (has_shape position [3%nat] && has_shape velocity [3%nat]) ;;;
  times <~ np_zeros [block] ;; positions <~ np_zeros [block; 6%nat] ;;
  row <~ (fun h => Done (contents h position ++ contents h velocity) h) ;; set_first_row positions row ;;;
  TP <~ trace_blocks_py fuel block fill [] [] times positions ;;
  match TP with
  | ([T], [P]) => ret (T, P)
  | (Ts, Ps) => T <~ concatenate Ts ;; P <~ concatenate Ps ;; ret (T, P)
  end.
(** the parameters times_block, tracing_block and bounds (lines 133-136) of the library function *)
Definition pass_blocks (block : nat) (times positions bounds : ndarray) (k : ptr -> ptr -> ptr -> M nat) : M nat :=
  t <~ pass (ByShape [block] Float64) times ;; p <~ pass (ByShape [block; 6%nat] Float64) positions ;; b <~ pass (ByShape [3%nat; 2%nat] Float64) bounds ;; k t p b.
(** solver.py:337-346, 358-365: effective point charges; the arrays hold float64 *)
Record eff_charges := mkeff { e_charges : ndarray; e_jacobians : ndarray; e_positions : ndarray }.
Definition new_eff (charges jacobians positions : ndarray) : M eff_charges :=
  q <~ astype_float charges ;; j <~ astype_float jacobians ;; x <~ astype_float positions ;;
  N <~ py_len q ;;
  match nd_shape j with
  | _ :: Q :: _ =>
      assertM (has_shape q [N] && has_shape j [N; Q]) ;;;
      assertM (has_shape x [N; Q; 3%nat] || has_shape x [N; Q; 2%nat]) ;;; ret (mkeff q j x)
  | _ => raise IndexError
  end.
(** the constructors of the structs (lines 99-131); [Q] is N_QUAD_2D or N_TRIANGLE_QUAD *)
Definition new_struct (Q : nat) (e : eff_charges) : M charge_struct :=
  match nd_shape (e_jacobians e) with
  | _ :: Q' :: _ =>
      assertM (Q' =? Q)%nat ;;;
      q <~ ensure_contiguous_aligned (e_charges e) ;; j <~ ensure_contiguous_aligned (e_jacobians e) ;; x <~ ensure_contiguous_aligned (e_positions e) ;;
      N <~ py_len (e_charges e) ;; ret (mkstruct (nd_base q) (nd_base j) (nd_base x) N)
  | _ => raise IndexError
  end.
(** field_bounds.ctypes.data_as(dbl_p): the address of the first item, whatever the dtype and the strides *)
Definition data_as_double (a : option ndarray) : option ptr := option_map nd_base a.

(** backend/__init__.py:336-350 trace_particle_radial *)
Definition trace_particle_radial_py (fuel inner block : nat) (position velocity bounds : ndarray) (atol : R) (elec mag cur : eff_charges) (field_bounds : option ndarray) : M (ndarray * ndarray) :=
  e <~ new_struct N_QUAD_2D elec ;; m <~ new_struct N_QUAD_2D mag ;; c <~ new_struct N_TRIANGLE_QUAD cur ;;
  trace_particle_wrapper_py fuel block position velocity (fun T P =>
    pass_blocks block T P bounds (fun t p b => c_trace_particle inner block t p (c_field_radial_traceable e m c (data_as_double field_bounds)) b atol)).
(** backend/__init__.py:366-377 trace_particle_3d *)
Definition trace_particle_3d_py (fuel inner block : nat) (position velocity bounds : ndarray) (atol : R) (elec mag : eff_charges) (field_bounds : option ndarray) : M (ndarray * ndarray) :=
  assertM (match field_bounds with None => true | Some a => has_shape a [3%nat; 2%nat] end) ;;;
  e <~ new_struct N_TRIANGLE_QUAD elec ;; m <~ new_struct N_TRIANGLE_QUAD mag ;;
  trace_particle_wrapper_py fuel block position velocity (fun T P =>
    pass_blocks block T P bounds (fun t p b => c_trace_particle inner block t p (c_field_3d_traceable e m (data_as_double field_bounds)) b atol)).
Section Junk2.
Variable junk : vec3.
(** backend/__init__.py:352-364 trace_particle_radial_derivs; the bounds have three rows *)
Definition trace_particle_radial_derivs_py (fuel inner block : nat) (position velocity bounds : ndarray) (atol : R) (z elec mag : ndarray) : M (ndarray * ndarray) :=
  N_z <~ py_len z ;; assertM (one_less elec N_z [DERIV_2D_MAX; 6%nat]) ;;; assertM (one_less mag N_z [DERIV_2D_MAX; 6%nat]) ;;;
  trace_particle_wrapper_py fuel block position velocity (fun T P =>
    pass_blocks block T P bounds (fun t p b =>
      zp <~ pass (arr 1) z ;; e <~ pass (arr 3) elec ;; m <~ pass (arr 3) mag ;;
      c_trace_particle inner block t p (c_field_radial_derivs_traceable junk zp e m N_z) b atol)).
(** backend/__init__.py:379-386 trace_particle_3d_derivs *)
Definition trace_particle_3d_derivs_py (fuel inner block : nat) (position velocity bounds : ndarray) (atol : R) (z elec mag : ndarray) : M (ndarray * ndarray) :=
  N_z <~ py_len z ;; assertM (one_less elec N_z [2%nat; NU_MAX; M_MAX; 4%nat]) ;;; assertM (one_less mag N_z [2%nat; NU_MAX; M_MAX; 4%nat]) ;;;
  trace_particle_wrapper_py fuel block position velocity (fun T P =>
    pass_blocks block T P bounds (fun t p b =>
      zp <~ pass (arr 1) z ;; e <~ pass (arr 5) elec ;; m <~ pass (arr 5) mag ;;
      c_trace_particle inner block t p (c_field_3d_derivs_traceable junk zp e m N_z) b atol)).
End Junk2.

(** ** tracing.py *)
(** tracing.py:117-122 Tracer.__init__: the bounds of a tracer *)
Definition new_tracer_bounds (bounds : ndarray) : M ndarray := b <~ astype_float bounds ;; assertM (has_shape b [3%nat; 2%nat]) ;;; ret b.
(** tracing.py:98-104 _convert_velocity_to_SI; the result is a new array.  Velocities of another shape than (3,) are rejected by
    trace_particle_wrapper. *)
Definition convert_velocity_py (velocity : ndarray) : M ndarray := fun h =>
  if has_shape velocity [3%nat] then
    match convert_velocity_to_SI (V3 (item h velocity [0%nat]) (item h velocity [1%nat]) (item h velocity [2%nat])) with
    | Ok v => new_array [3%nat] Float64 [vx v; vy v; vz v] h
    | Err e => Raises e
    end
  else Raises AssertionError.
(** np.array(a) for an array with two dimensions: a copy with the same dtype.  The order of the items in memory is that of [a] as far as
    possible (order='K' of numpy): column by column if the strides of [a] increase, row by row otherwise. *)
Definition copy_by_columns (a : ndarray) (m n : nat) : M ndarray := fun h =>
  Done (mkarray (mkptr (length h) 0) [m; n] [1%Z; Z.of_nat m] (nd_dtype a)) (h ++ [mkbuffer (nd_dtype a) (flat_map (fun j => map (fun i => item h a [i; j]) (arange m)) (arange n))]).
Definition np_array2 (a : ndarray) : M ndarray :=
  match nd_shape a, nd_strides a with
  | [m; n], [s; t] => if (Z.abs s <? Z.abs t)%Z then copy_by_columns a m n else fun h => new_array [m; n] (nd_dtype a) (contents h a) h
  | _, _ => fun h => new_array (nd_shape a) (nd_dtype a) (contents h a) h
  end.
(** solver.py:555, 557-568: field_bounds of a field, None until set_bounds is called *)
Definition set_bounds (bounds : ndarray) : M (option ndarray) :=
  a <~ np_array2 bounds ;; assertM (has_shape a [3%nat; 2%nat]) ;;; ret (Some a).
(** TracerRadialBEM, Tracer3D_BEM, TracerRadialAxial, Tracer3DAxial (tracing.py:150-184): calls of a tracer with bounds [tb] *)
Definition tracer_radial_bem (fuel inner block : nat) (elec mag cur : eff_charges) (field_bounds : option ndarray) (tb position velocity : ndarray) (atol : R) : M (ndarray * ndarray) :=
  v <~ convert_velocity_py velocity ;; trace_particle_radial_py fuel inner block position v tb atol elec mag cur field_bounds.
Definition tracer_3d_bem (fuel inner block : nat) (elec mag : eff_charges) (tb position velocity : ndarray) (atol : R) : M (ndarray * ndarray) :=
  v <~ convert_velocity_py velocity ;; trace_particle_3d_py fuel inner block position v tb atol elec mag None.
Definition tracer_radial_axial (junk : vec3) (fuel inner block : nat) (z elec mag tb position velocity : ndarray) (atol : R) : M (ndarray * ndarray) :=
  v <~ convert_velocity_py velocity ;; trace_particle_radial_derivs_py junk fuel inner block position v tb atol z elec mag.
Definition tracer_3d_axial (junk : vec3) (fuel inner block : nat) (z elec mag tb position velocity : ndarray) (atol : R) : M (ndarray * ndarray) :=
  v <~ convert_velocity_py velocity ;; trace_particle_3d_derivs_py junk fuel inner block position v tb atol z elec mag.
(** the force of the last one: tracing.c:230-241, over the reals *)
Definition field_3d_derivs_traceable (z : list R) (elec mag : list coeff3d_row) : field_fun := fun s =>
  e <- field_3d_derivs (s_pos s) z elec ;; m <- field_3d_derivs (s_pos s) z mag ;; Ok (combine_elec_magnetic_field (s_vel s) e m vzero).
