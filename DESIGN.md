# Formal model of leon-vv/Traceon in Rocq (Coq 8.16.1)

## 1. Approach

Shallow Gallina models of the Python/C functions, branch by branch, with
exceptions as values (`Err`).  Every definition cites the file and lines it
models.  Model files (`*Model.v`) contain no proofs; facts are in `*Facts.v`;
the property theorems are in `Props_*.v`, each closed by `exact` and followed by
`Print Assumptions`.

Two levels of number model:

* **combinatorial code** (indices, groups, sorting, graph walks, schedules):
  exact, on `nat`/`Z`/`list`; float64 coordinates are 64-bit patterns (`Z`) with
  IEEE comparison on patterns, so the truncation and lexicographic sort of
  `_deduplicate_points` are exact.  Floating-point *tests* used by this code
  (area < 1e-12, outwardness, triangle orientation) are oracles: theorems hold
  for every result they can return; separate theorems describe those tests over R.
* **numerical code** (geometry, fields, integration, tracing): over Coq's
  real numbers; float rounding, `-ffast-math`, NaN/inf are not modelled. Tables of
  decimal constants are exact rationals.

Threads: a thread writes only its own output slot; every interleaving of the
slot writes is a schedule.

## 2. Plan per property
(see MANIFEST.json for status; theorem names there)

| id | model | proof |
|----|-------|-------|
| C01-C04 | MeshModel: constructor pipeline over bit patterns and oracles | sort/dedup facts, mask/cumsum lemma, walk invariants with fuel |
| C05-C07 | MeshModel: add, extract | list/offset lemmas on top of C01-C04 |
| C08 | OrientModel: label walk | DFS invariant: labels closed under adjacency |
| C09-C10 | OrientModel: reorient lines / triangles | DFS invariant: oriented set agrees with a reference orientation |
| C11 | GeomModel: outward sums over R | shoelace telescoping over closed polylines; edge cancellation for surfaces |
| C12-C13 | GeomModel: move/rotate/mirror | ring + trig identities; missing branch refuted |
| C14-C16 | MeshModel: flip_normals, meshio, higher order | corollaries/refutations |
| C17-C20 | PathModel over R | list of R lemmas; archimedean ceil |
| C21-C23 | PathModel, SurfaceModel | trig identities, derivatives via Coquelicot |
| C24-C26 | Mesher: subdivision, point stack, stitching | measure/tiling induction; refutation by explicit execution |
| C27-C29 | ExcitationModel | association-list induction |
| C30 | SolverModel | linearity over a field; refutations |
| C31-C32 | ThreadModel | permutation of schedules; arithmetic of array_split |
| C33, C50 | class/operator dispatch as a type-tag interpreter | case analysis, refutations |
| C34-C36, C39, C47 | Fields / RKF45 over R | derivatives, ring, field |
| C37-C38 | Tracing loop over abstract derivative function | loop invariants |
| C40-C41 | Quadrature tables over Q/R | vm_compute on monomials lifted to polynomials; recursion invariant |
| C42-C46 | SeriesModel, FocusModel | Coquelicot derivatives, field |
| C48-C49 | Excitation/solver flow models | refutations + positive part |
| C51, C56, C57 | RingModel, EllipticSpec: ring kernels with the elliptic integrals as parameters; the integrals themselves as `RInt` | substitution and differentiation under the integral (Coquelicot) |
| C52 | MeshModel with six-point triangles | refutation by execution, positive part for supported widths |
| C53-C55 | PathModel, SurfaceModel | algebra; refutations of the false halves |
| C58-C60 | MesherModel: the subdivision loop up to the call of the Mesh constructor | decreasing measure; invariants on the point stacks; refutation by execution (hanging nodes); for swept strokes and cylinders the decisions depend on the shape of a cell only, so all cells end with the same size (MesherUniform, MesherEven) |
| C61, C62 | MatrixModel: matrix, right hand side, diagonal, field evaluation | row of the linear system read as field at the collocation point |
| C63-C65 | SolverModel, FieldModel | sums over lists; exactness of the 16-point rule on linear functions |
| C66, C67 | TriangleModel: one-dimensional integrals over the triangle | iterated integral = surface integral; refutation where a threshold fails |
| C68 | EdgeModel: triangle_orientation_is_equal | sign of triple products; combinatorics of directed edges |
| C69 | Axial3DModel: potential_3d_derivs, field_3d_derivs | gradient by Coquelicot; rotation by trigonometric polynomials |
| C70 | Axial3DModel: axial_coefficients_3d, the recurrence of the coefficient table | harmonic polynomials: Laplace equation order by order, symbolic table checked by `field` |
| C71, C74 | MeshModel: map_points, remove_lines, remove_triangles | corollaries of the constructor facts (C01-C04) |
| C72 | CollMeshModel: PathCollection.mesh, SurfaceCollection.mesh; the discretisation of a member is arbitrary | induction over the members with C05 |
| C73 | MeshModel: meshing with ensure_outward_normals=False | refutation by execution; what the switch does change |
| C75 | TriangleModel: self_potential_triangle | closed form of the potential of a triangle (TriangleClosedFacts) and its limit on the triangle |
| C76, C77 | MesherModel | simulation: the mesher looks at points only through evaluation and the subdivision test (MesherSim, SimilarFacts) |
| C78, C79 | AxialModel: constructor of FieldRadialAxial (samples, coefficient table; CubicSpline arbitrary), SeriesModel | Hermite interpolation error (HermiteError), Legendre bounds on all axial derivatives (LegendreFacts); C79: refutation by the default number of samples |
| C80, C81 | SeriesModel, RingModel, AxialModel | Legendre expansion with an explicit residual and an integrating factor (RadialSeriesFacts), averages of cosines (RingSeriesFacts) |
| C82, C83 | SeriesModel, RingModel, AxialModel | Gegenbauer expansion of the inverse cube of the distance (GegenbauerFacts), Coulomb and Biot-Savart integrals over a turn (FieldSeriesFacts, CoulombFacts) |
| C84, C85 | TracingModel, FieldModel | Butcher series to order five: all 17 elementary differentials (ConvFacts, ConvStep, ConvLocal), discrete Gronwall (ConvGlobal); forces of charges are expressions with bounded derivatives away from the charges (ExprFacts, ExprSmooth, BemSmooth), those of rings (with the polynomials and the logarithm that stand for elliptic integrals) away from the rings and the axis (ExprTube, RadialSmooth) |
| C86 | TracingModel, FieldModel, SeriesModel | step sizes stay above a positive minimum because the error estimate is of second order in a bounded force (ProgressFacts), potential argument over accepted and rejected steps (ProgressLoop), bounds on the fields (BemSmooth, RadialBound, AxialBound) |
| C87 | FieldModel (ellipkm1, ellipem1), EllipticSpec (the integrals) | power series of both integrals around 0 and, with the logarithm, around 1 from their differential equations (EllipticSeries, EllipticExpand, EllipticLog, EllipticLogSeries); rational coefficients, Taylor shifts on 136 + 65 cells per function with integer arithmetic, run by `vm_compute` in the kernel (PolyBound, EllipticNum, EllipticCert, EllipticWhole, EllipticCheckK, EllipticCheckE) |
| C88 | MemModel (memory, numpy arrays, pointers), BackendModel (the Python wrappers and the C functions as programs over memory) | rules for loads, stores and loops (MemFacts), one lemma per function (BackendSafe, BackendUnsafe); refutations by execution (BackendFaults) |
| C89 | as C88; FieldModel, SeriesModel, Axial3DModel, MatrixModel are the formulas | each program refines the function of the structured model on the items of the arguments (BackendValues ... BackendAssemble) |
| C90 | Axial3DModel, FieldModel | the terms of degree below eight are the Legendre expansion (HarmonicFacts); its truncation error from a differential equation (RadialSeriesFacts, GegenbauerFacts); the other twelve terms bounded by Fourier orthogonality (Series3D*Facts) |
| C91 | TraceMemModel (on MemModel), TracingModel | simulation: the C loop keeps the samples as a prefix of the two blocks, the Python loop keeps the blocks as arrays that later writes do not touch (TraceMemFacts, TraceMemBlocks); the four force functions by the value lemmas of C89 (TraceMemFields); errors by the same induction (TraceMemErrors); specification in TraceMemSpec |
| C92 | TraceMemModel | the copy that set_bounds makes, cell by cell (numpy keeps the memory order, order='K'), and then C91; a load with the wrong item type for integers (TraceMemBounds) |
| C93 | MatrixModel, SolverModel, FieldModel, TracingModel; MotionModel says what a moved excitation is | a distance-preserving map is linear up to a displacement and keeps inner products; a proper one keeps cross products (MotionFacts); the matrix, the right hand sides and hence the charges are the same (MotionSolve, MotionRadial); simulation of the trace (MotionTrace) |
| C94 | FieldModel, TracingModel | the derivative of the energy along a solution vanishes: the field is minus the gradient of the potential, the magnetic force does no work (EnergyFacts); for computed traces the global error bound of C85 and a Lipschitz constant of the energy |
| C95 | MatrixModel, SolverModel, FieldModel, TracingModel; ScaleModel says what a scaled excitation and a scaled field are | linearity of the right hand sides and of the solver, sum by sum (ScaleSolve); simulation of the trace with steps 1/c times as long: stages, error and step choice scale (ScaleTrace) |
| C96 | FieldModel, SeriesModel, TracingModel; SymmetryModel says what the symmetries are | fields from cylindrical components commute with rotations about the axis; the derivative of the angular momentum vanishes; the Runge-Kutta stages stay in the subspace (SymmetryFacts); C85 for the computed angular momentum |
| C97 | TracingModel, with C93 for the solution | simulation of the trace: signed permutations are linear, keep inner products and the largest component, and multiply cross products by their determinant (SymmetryFacts) |
| C98 | ExcitationModel, SolverModel, MatrixModel, TracingModel; NumberingModel says when two problems differ in numbering only | every lookup of a point and every mark of an active element is the same; the sums over coils are permuted (NumberingFacts) |
| C99 | TracingModel, with C84 and C85 for the computed trajectory; ReverseModel says what running backwards means | the equation of motion is invariant when the velocity and the magnetic field change sign; C85 for the reversed trajectory |

Properties added later follow the same pattern; MANIFEST.json names the theorems.

## 3. Trusted base

1. **Coq 8.16.1's kernel**, and `vm_compute` (used for closed computations on tables and examples).
2. **Axioms.** No axiom is declared in `rocq/theories`.  The axioms below come from the standard library; they are the
   ones behind Coq's real numbers and (through Coquelicot) classical logic:
   * F = `ClassicalDedekindReals.sig_forall_dec`, N = `ClassicalDedekindReals.sig_not_dec`,
     E = `FunctionalExtensionality.functional_extensionality_dep`, L = `Classical_Prop.classic`.
   The table in section 4 gives the result of `Print Assumptions` for every theorem of MANIFEST.json (`none` = closed
   under the global context).
3. **The reading of the code.** /repo was read, never run.  Each definition of a `*Model.v` file cites the lines it models.
4. **The specifications**: the definitions used in theorem statements (`*Spec.v`, and the definitions just before the
   theorems in `Props_*.v`).

### What is modelled

| code | model | not modelled in it |
|---|---|---|
| mesher.py Mesh (constructor, add, extract, flip, dictionaries, orientation, connectivity, higher order) | MeshModel, OrientModel, GeomModel | float arithmetic in the three geometric tests is an oracle there (reals in GeomModel, EdgeModel); file formats of meshio beyond cells and names; NaN coordinates are excluded by hypothesis |
| mesher.py PointStack, subdivision, triangulation, stitching | MesherModel | float rounding; the final Mesh constructor call (C01-C04) |
| geometry.py Path, Surface, collections | PathModel, SurfaceModel, CollectionModel, CollMeshModel | float rounding; `Path.from_irregular_function`, `Path.spline_through_points`, `average` (built on scipy `CubicSpline` and `quad`) are not modelled |
| excitation.py | ExcitationModel | printing; voltage functions are arbitrary functions of position |
| solver.py Solver, ElectrostaticSolver, MagnetostaticSolver, solve_direct, superposition, FieldBEM and subclasses, operators | SolverModel, MatrixModel, FieldModel, DispatchModel | `numpy.linalg.solve` is any function returning the only solution; logging and timing; FMM (not present) |
| solver.py / interpolation.py axial fields, constructor of FieldRadialAxial | SeriesModel, AxialModel, InterpFacts | `scipy.CubicSpline` for the two highest derivatives (arbitrary) |
| tracing.py, focus.py | TracingModel, FocusModel | float rounding; `numpy.linalg.lstsq` by its documented result |
| util.py, backend threads (`split_collect`) | ThreadModel | memory model weaker than atomic loads and stores; exceptions inside the thread pool itself |
| backend/__init__.py wrappers (asserts, ensure_contiguous_aligned, ndpointer checks) and the C functions they call, as programs over memory | MemModel, BackendModel | offsets and strides are counted in items and items are reals; views reinterpreting a dtype, misaligned arrays, byte order; the released library is compiled with NDEBUG (C asserts absent); the ArgumentError of ctypes is rendered as TypeError; the arrays of two doubles that position_and_jacobian_radial and higher_order_normal_radial allocate for results are returned as values; `self_potential_radial` is not in this model |
| the tracers on memory: `trace_particle_*`, `field_*_traceable`, the EffectivePointCharges structs, set_bounds | TraceMemModel | as above; the lifetime of the copies that the structs point to; uninitialised local arrays hold arbitrary numbers; `trace_particle` with a Python field function |
| backend/*.c kernels: utilities_2d, utilities_3d, radial_ring, radial, three_d_point, three_d, triangle, kronrod, tracing, elliptic | GeomModel, QuadModel, Tables, RingModel, FieldModel, TriangleModel, EdgeModel, TracingModel, Axial3DModel | float rounding, `-ffast-math`, integer overflow |

### What is not modelled

plotting.py, logging.py, `__pdoc__` machinery, the build (setup.py, Makefiles), validation files, loading of the shared
library, performance.  Except in C88, C89, C91 and C92, array shapes and dtypes are assumed to be what the Python wrappers assert.

## 4. Axioms per theorem
<!-- axioms -->
| property | theorems: axioms |
|---|---|
| C01 | C01_elements_stay_in_place, C01_rounding_is_small: **none** |
| C02 | C02_points_sorted_without_duplicates, C02_points_depend_only_on_the_set_of_points: **none** |
| C03 | C03_groups_survive: **none** |
| C04 | C04_construction_total: **none** |
| C05 | C05_sum_total, C05_sum_is_union, C05_different_orders_are_rejected: **none** |
| C06 | C06_points_commute, C06_points_associate, C06_adding_nothing, C06_rebuilding_renumbers_nothing, C06_constructed_meshes_are_canonical: **none** |
| C07 | C07_extract_line_group, C07_extract_triangle_group, C07_unknown_group: **none** |
| C08 | C08_connected_pieces: **none** |
| C09 | C09_lines_head_to_tail: **none** |
| C10 | C10_triangles_oppose_along_edges: **none** |
| C11 | C11_line_test, C11_triangle_test, C11_line_orientation, C11_triangle_orientation, C11_positive_is_outward, C11_mesh_lines, C11_mesh_triangles: **EFN** |
| C12 | C12_rotate, C12_angles_add_up, C12_two_angles_are_rejected, C12_move_and_mirror: **EFN** |
| C13 | C13_refuted, C13_nonzero_partial: **EFN** |
| C14 | C14_flip_normals_partial, C14_refuted: **none** |
| C15 | C15_meshio_roundtrip_partial, C15_groups_refuted: **none** |
| C16 | C16_higher_order_lines: **EFN**; C16_cubic_element: **EFLN** |
| C17 | C17_samples_for_mesh_size, C17_samples_for_mesh_size_factor: **EF**; C17_no_size_rejected: **none** |
| C18 | C18_mesh_runs_along_the_path: **EF** |
| C19 | C19_concatenation_follows_both, C19_breakpoints_partial: **EF**; C19_breakpoints_refuted: **EFN** |
| C20 | C20_cut: **EF**; C20_add_phase: **EFL** |
| C21 | C21_line, C21_rectangles, C21_aperture: **EFN**; C21_circles, C21_arc: **EFLN** |
| C22 | C22_revolve_keeps_distance, C22_revolve_turns_like_rotate_partial, C22_revolve_y_turns_backwards_partial, C22_revolve_y_refuted: **EFLN** |
| C23 | C23_extrude, C23_from_boundary_paths_refuted: **EFN**; C23_extrude_by_path, C23_from_boundary_paths_partial: **EF**; C23_spanned_by_paths, C23_sphere, C23_disk, C23_disk_needs_a_radius: **EFLN** |
| C24 | C24_no_overlap_partial, C24_extrude_covered_partial, C24_extrude_by_path_covered_partial, C24_rectangle_covered_partial, C24_spanned_covered_partial, C24_box_covered_partial, C24_hole_refuted: **EFN**; C24_revolve_covered_partial, C24_sphere_covered_partial, C24_disk_covered_partial, C24_smooth_curves: **EFLN** |
| C25 | C25_points_partial, C25_positions_partial, C25_evaluated_twice_refuted: **EFN** |
| C26 | C26_one_direction_partial, C26_two_directions_refuted: **EFN** |
| C27 | C27_last_assignment_counts, C27_one_condition_per_name: **F**; C27_new_excitation: **none** |
| C28 | C28_split, C28_weighted_sum, C28_defined: **EF** |
| C29 | C29_electrostatic, C29_magnetostatic, C29_defined: **F** |
| C30 | C30_electrostatic_partial, C30_magnetization_partial, C30_mixed_refuted, C30_currents_refuted, C30_example: **EFLN** |
| C31 | C31_any_schedule, C31_same_as_sequential, C31_finishes, C31_default_threads: **none** |
| C32 | C32_three_d_complete, C32_three_d_one_thread_per_row, C32_radial_complete_partial, C32_radial_refuted: **none** |
| C33 | C33_radial_fields_partial, C33_radial_closed_partial, C33_three_d_fields_refuted, C33_three_d_mixed_refuted: **EFLN**; C33_axial_fields_partial: **EFN**; C33_bem_operators_refuted, C33_interpolated_refuted: **EF** |
| C34 | C34_gradient: **EFLN**; C34_linear: **EFN** |
| C35 | C35_lorentz: **EFLN**; C35_lorentz_axial: **EFN**; C35_acceleration, C35_linear: **EF** |
| C36 | C36_runge_kutta, C36_order, C36_affine: **EF**; C36_uniform, C36_free: **EFLN** |
| C37 | C37_trajectory, C37_tracer: **EFLN** |
| C38 | C38_intersection, C38_found, C38_planes: **EFN** |
| C39 | C39_direction, C39_defined, C39_length_irrelevant, C39_energy, C39_angles: **EFN**; C39_constants_agree: **EF** |
| C40 | C40_gauss, C40_kronrod, C40_triangle: **EFLN**; C40_points_and_weights: **EF** |
| C41 | C41_adaptive_sum, C41_terminates, C41_empty: **EF**; C41_constant: **EFLN** |
| C42 | C42_ring, C42_tables: **EFLN** |
| C43 | C43_outside: **EFN**; C43_inside_partial: **EFLN** |
| C44 | C44_rows_exist_partial, C44_last_sample_refuted: **EFN**; C44_rows_exist_3d_partial, C44_last_sample_3d_refuted: **EFLN** |
| C45 | C45_end_values, C45_smooth: **EFLN**; C45_spline: **EF** |
| C46 | C46_least_squares, C46_exact: **EFN** |
| C47 | C47_normals, C47_areas, C47_jacobians: **EFN**; C47_points: **EFLN** |
| C48 | C48_refuted, C48_in_the_users_mesh_partial: **EFN**; C48_example: **F** |
| C49 | C49_refuted, C49_evaluation_refuted, C49_three_d_tracer_refuted, C49_radial_tracer_partial: **EFLN** |
| C50 | C50_surfaces, C50_paths_partial, C50_paths_refuted, C50_iadd_refuted: **none** |
| C51 | C51_second_kind, C51_first_kind_refuted: **EFLN**; C51_first_kind_partial: **EFN** |
| C52 | C52_named_six_point_triangles_refuted: **none** |
| C53 | C53_close_partial, C53_close_closed_refuted: **EFN** |
| C54 | C54_rectangles_clockwise_refuted: **EFN**; C54_rectangles_clockwise_partial: **EF** |
| C55 | C55_extrude_boundary, C55_not_enclosed: **EFN**; C55_revolve_boundary_partial, C55_revolve_boundary_full, C55_revolve_boundary_y_refuted: **EFLN**; C55_extrude_boundary_by_path_refuted: **EF** |
| C56 | C56_potential, C56_gradient, C56_code, C56_error: **EFLN** |
| C57 | C57_biot_savart: **EFLN** |
| C58 | C58_meshing_ends, C58_zero_mesh_size: **EFN** |
| C59 | C59_mesh_size: **EFN** |
| C60 | C60_conforming_refuted, C60_box_refuted: **EFN**; C60_extrude_partial, C60_extrude_by_path_partial, C60_rectangle_partial, C60_cylinder_partial: **EFLN** |
| C61 | C61_radial_voltage, C61_three_d_voltage, C61_radial_magnetostatic_potential, C61_three_d_magnetostatic_potential: **EFLN** |
| C62 | C62_radial_dielectric, C62_radial_magnetizable, C62_three_d_dielectric, C62_three_d_magnetizable: **EFLN** |
| C63 | C63_total_current: **EFLN** |
| C64 | C64_three_d, C64_radial: **EFLN** |
| C65 | C65_automatic_choice: **EFLN** |
| C66 | C66_potential_partial, C66_row, C66_centroid_partial, C66_coplanar_row_refuted: **EFLN** |
| C67 | C67_flux_partial, C67_small_geometry_refuted: **EFLN** |
| C68 | C68_comparison, C68_orientation, C68_outward: **EFN** |
| C69 | C69_outside, C69_gradient, C69_axis, C69_rotation: **EFLN** |
| C70 | C70_coefficients: **EFLN** |
| C71 | C71_transform: **none** |
| C72 | C72_paths, C72_surfaces, C72_naming: **none** |
| C73 | C73_single_partial, C73_refuted: **none** |
| C74 | C74_remove_lines, C74_remove_triangles: **none** |
| C75 | C75_self_potential, C75_vertex: **EFLN**; C75_unique: **EFN** |
| C76 | C76_size, C76_factor, C76_enlarged, C76_sphere, C76_extrude, C76_rectangle: **EFN** |
| C77 | C77_rigid, C77_position_dependent, C77_move_rotate_mirror: **EFN**; C77_path: **EF** |
| C78 | C78_built, C78_given: **EFN**; C78_samples, C78_accuracy: **EFLN** |
| C79 | C79_default_refuted, C79_default_partial: **EFN** |
| C80 | C80_truncation, C80_radial: **EFLN** |
| C81 | C81_potential: **EFLN** |
| C82 | C82_rings, C82_loops, C82_radial: **EFLN** |
| C83 | C83_field: **EFLN** |
| C84 | C84_local, C84_three_d, C84_radial: **EFLN** |
| C85 | C85_global, C85_three_d, C85_radial: **EFLN** |
| C86 | C86_ends, C86_three_d, C86_radial, C86_axial: **EFLN** |
| C87 | C87_first_kind, C87_second_kind, C87_ellipk, C87_ellipe, C87_potential, C87_field, C87_current: **EFLN** |
| C88 | C88_fields, C88_axial, C88_matrix, C88_series_partial, C88_refuted: **EFLN**; C88_geometry, C88_elements_partial: **EFN** |
| C89 | C89_fields, C89_currents, C89_coefficients_3d, C89_matrix, C89_series, C89_layout, C89_strided_matrix_refuted, C89_none_refuted, C89_integer_point_refuted, C89_one_row_refuted: **EFLN**; C89_axial, C89_geometry, C89_elements, C89_plane, C89_buffers, C89_layout_3d: **EFN** |
| C90 | C90_series, C90_samples, C90_coefficients_differentiable: **EFLN** |
| C91 | C91_radial, C91_three_d, C91_radial_axial, C91_three_d_axial: **EFLN**; C91_constructors: **F** |
| C92 | C92_rows_partial, C92_columns_refuted, C92_columns_no_force_refuted, C92_integers_refuted: **EFLN** |
| C93 | C93_three_d, C93_radial, C93_trace: **EFLN**; C93_motions: **EFN** |
| C94 | C94_exact, C94_magnetic, C94_arrival, C94_computed, C94_speed_computed: **EFLN** |
| C95 | C95_solution, C95_trace, C95_axial_trace: **EFLN**; C95_optics: **EFN** |
| C96 | C96_rotated, C96_angular_momentum, C96_computed, C96_meridional, C96_quarter_turns, C96_axial: **EFLN** |
| C97 | C97_trace, C97_configuration: **EFLN**; C97_plane: **EFN** |
| C98 | C98_numbering, C98_as_given: **EFLN** |
| C99 | C99_reversal, C99_retraced, C99_axial, C99_computed: **EFLN** |
<!-- end axioms -->
