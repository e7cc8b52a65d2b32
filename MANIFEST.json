{
 "claims": [
  {
   "property": "C01",
   "status": "proved",
   "theorems": [
    "C01_elements_stay_in_place",
    "C01_rounding_is_small"
   ],
   "note": "Every input, every result of the floating point tests (oracles). Coordinates are exact float64 bit patterns."
  },
  {
   "property": "C02",
   "status": "proved",
   "theorems": [
    "C02_points_sorted_without_duplicates",
    "C02_points_depend_only_on_the_set_of_points"
   ],
   "note": "Coordinates are assumed not NaN."
  },
  {
   "property": "C03",
   "status": "proved",
   "theorems": [
    "C03_groups_survive"
   ],
   "note": "Group indices are non-negative (numpy would also accept negative ones)."
  },
  {
   "property": "C04",
   "status": "proved",
   "theorems": [
    "C04_construction_total"
   ],
   "note": "Three-point triangles; six-point triangles are C52."
  },
  {
   "property": "C05",
   "status": "proved",
   "theorems": [
    "C05_sum_total",
    "C05_sum_is_union",
    "C05_different_orders_are_rejected"
   ],
   "note": ""
  },
  {
   "property": "C06",
   "status": "proved",
   "theorems": [
    "C06_points_commute",
    "C06_points_associate",
    "C06_adding_nothing",
    "C06_rebuilding_renumbers_nothing",
    "C06_constructed_meshes_are_canonical"
   ],
   "note": "The last two need that no triangle has become degenerate by rounding."
  },
  {
   "property": "C07",
   "status": "proved",
   "theorems": [
    "C07_extract_line_group",
    "C07_extract_triangle_group",
    "C07_unknown_group"
   ],
   "note": "A name used for both lines and triangles yields the lines. Triangles below the area threshold are dropped by the constructor."
  },
  {
   "property": "C08",
   "status": "proved",
   "theorems": [
    "C08_connected_pieces"
   ],
   "note": ""
  },
  {
   "property": "C09",
   "status": "proved",
   "theorems": [
    "C09_lines_head_to_tail"
   ],
   "note": "Connectedness is through line ends; inner points of cubic elements are not ends of others."
  },
  {
   "property": "C10",
   "status": "proved",
   "theorems": [
    "C10_triangles_oppose_along_edges"
   ],
   "note": "Assumes that the floating point edge comparison reports common edges correctly."
  },
  {
   "property": "C11",
   "status": "proved",
   "theorems": [
    "C11_line_test",
    "C11_triangle_test",
    "C11_line_orientation",
    "C11_triangle_orientation",
    "C11_positive_is_outward",
    "C11_mesh_lines",
    "C11_mesh_triangles"
   ],
   "note": "Over the reals; the floating point test is assumed to decide the sign of the sum correctly."
  },
  {
   "property": "C12",
   "status": "proved",
   "theorems": [
    "C12_rotate",
    "C12_angles_add_up",
    "C12_two_angles_are_rejected",
    "C12_move_and_mirror"
   ],
   "note": "Over the reals."
  },
  {
   "property": "C13",
   "status": "partial",
   "theorems": [
    "C13_refuted",
    "C13_nonzero_partial"
   ],
   "note": "The property is false of the code: with all angles zero the rotation matrix is never assigned and mapping any point raises NameError."
  },
  {
   "property": "C14",
   "status": "partial",
   "theorems": [
    "C14_flip_normals_partial",
    "C14_refuted"
   ],
   "note": "The property is false of the code for named groups: the constructor called by flip_normals re-orients them. The refutation exhibits a constructed mesh that flip_normals returns unchanged; the partial theorem covers everything else."
  },
  {
   "property": "C15",
   "status": "partial",
   "theorems": [
    "C15_meshio_roundtrip_partial",
    "C15_groups_refuted"
   ],
   "note": "The property is false of the code: to_meshio drops the named groups (refuted). Points and elements do round-trip."
  },
  {
   "property": "C16",
   "status": "proved",
   "theorems": [
    "C16_higher_order_lines",
    "C16_cubic_element"
   ],
   "note": "Over the reals."
  },
  {
   "property": "C17",
   "status": "proved",
   "theorems": [
    "C17_samples_for_mesh_size",
    "C17_samples_for_mesh_size_factor",
    "C17_no_size_rejected"
   ],
   "note": "Over the reals. With mesh_size the steps are at most mesh_size (mesh_size/3 between the samples of a higher order element); mesh_size_factor is an integer."
  },
  {
   "property": "C18",
   "status": "proved",
   "theorems": [
    "C18_mesh_runs_along_the_path"
   ],
   "note": "Composed with the constructor model: coordinates as stored (any storage function enc without NaN) and rounded as in C01."
  },
  {
   "property": "C19",
   "status": "partial",
   "theorems": [
    "C19_concatenation_follows_both",
    "C19_breakpoints_partial",
    "C19_breakpoints_refuted"
   ],
   "note": "The breakpoint part is false of the code: breakpoints of the second path are not shifted by the length of the first, so corners are missed and samples run backwards (refuted with a concrete polyline). Everything else is proved."
  },
  {
   "property": "C20",
   "status": "proved",
   "theorems": [
    "C20_cut",
    "C20_add_phase"
   ],
   "note": "Over the reals."
  },
  {
   "property": "C21",
   "status": "proved",
   "theorems": [
    "C21_line",
    "C21_circles",
    "C21_arc",
    "C21_rectangles",
    "C21_aperture"
   ],
   "note": "Over the reals. Arcs whose three points are on one line have no plane and are excluded (the code yields NaN)."
  },
  {
   "property": "C22",
   "status": "partial",
   "theorems": [
    "C22_revolve_keeps_distance",
    "C22_revolve_turns_like_rotate_partial",
    "C22_revolve_y_turns_backwards_partial",
    "C22_revolve_y_refuted"
   ],
   "note": "False of the code for revolve_y, which turns clockwise about y (refuted; proved to end at the path rotated by minus the angle). Proved in full for x and z, for every value of the average radius returned by quad."
  },
  {
   "property": "C23",
   "status": "partial",
   "theorems": [
    "C23_extrude",
    "C23_extrude_by_path",
    "C23_spanned_by_paths",
    "C23_sphere",
    "C23_disk",
    "C23_disk_needs_a_radius",
    "C23_from_boundary_paths_partial",
    "C23_from_boundary_paths_refuted"
   ],
   "note": "from_boundary_paths is false of the code for curved edges (refuted); proved for straight edges. All other clauses are proved in full."
  },
  {
   "property": "C24",
   "status": "partial",
   "theorems": [
    "C24_no_overlap_partial",
    "C24_extrude_covered_partial",
    "C24_extrude_by_path_covered_partial",
    "C24_revolve_covered_partial",
    "C24_sphere_covered_partial",
    "C24_disk_covered_partial",
    "C24_rectangle_covered_partial",
    "C24_spanned_covered_partial",
    "C24_box_covered_partial",
    "C24_smooth_curves",
    "C24_hole_refuted"
   ],
   "note": "False of the code in general (refuted): there is a smooth flat surface without breakpoints whose mesh at a constant mesh size has a hole, because neighbouring cells can be divided more than one level apart. No overlap, no triangle outside and equal orientation are proved for every surface with breakpoints in at most one direction and every run that ends; coverage is proved for extrusions and sweeps of curves of lines, circles and arcs, revolved polylines, spheres, disks, rectangles, boxes and surfaces spanned by lines, every constant mesh size, including termination."
  },
  {
   "property": "C25",
   "status": "partial",
   "theorems": [
    "C25_points_partial",
    "C25_positions_partial",
    "C25_evaluated_twice_refuted"
   ],
   "note": "The clause that the surface is evaluated at most once per parameter pair is false of the code (refuted on a flat rectangle); the duplicate points are not used by triangles. Proved for surfaces with breakpoints in at most one direction: every numbered position carries the point of the surface there, and corners at the same parameters are the same point."
  },
  {
   "property": "C26",
   "status": "partial",
   "theorems": [
    "C26_one_direction_partial",
    "C26_two_directions_refuted"
   ],
   "note": "False of the code with breakpoints in both directions (refuted: index arithmetic assumes the transposed order of the sections). Proved when one direction has no breakpoints."
  },
  {
   "property": "C27",
   "status": "proved",
   "theorems": [
    "C27_last_assignment_counts",
    "C27_new_excitation",
    "C27_one_condition_per_name"
   ],
   "note": "Any history of the seven add_* methods; a failing call keeps the assignments before the first disallowed one."
  },
  {
   "property": "C28",
   "status": "proved",
   "theorems": [
    "C28_split",
    "C28_weighted_sum",
    "C28_defined"
   ],
   "note": ""
  },
  {
   "property": "C29",
   "status": "proved",
   "theorems": [
    "C29_electrostatic",
    "C29_magnetostatic",
    "C29_defined"
   ],
   "note": "A condition on a name without elements of the symmetry raises KeyError."
  },
  {
   "property": "C30",
   "status": "partial",
   "theorems": [
    "C30_electrostatic_partial",
    "C30_magnetization_partial",
    "C30_mixed_refuted",
    "C30_currents_refuted",
    "C30_example"
   ],
   "note": "The property is false of the code for mixed excitations in 3D and for current excitations (refuted). It holds for purely electrostatic problems and purely magnetizable problems."
  },
  {
   "property": "C31",
   "status": "proved",
   "theorems": [
    "C31_any_schedule",
    "C31_same_as_sequential",
    "C31_finishes",
    "C31_default_threads"
   ],
   "note": "Interleaving machine with atomic loads and stores; every schedule. An exception in a thread is lost and leaves the placeholder np.zeros(0), as C31_any_schedule states."
  },
  {
   "property": "C32",
   "status": "partial",
   "theorems": [
    "C32_three_d_complete",
    "C32_three_d_one_thread_per_row",
    "C32_radial_complete_partial",
    "C32_radial_refuted"
   ],
   "note": "False of the code for radial symmetry when there are fewer than two rows per thread: the wrapper asserts start < end, so single-row pieces raise inside their thread and stay zero (refuted for every 1 <= N < 2T). Proved in full for 3D, and for radial symmetry with 2T <= N."
  },
  {
   "property": "C33",
   "status": "partial",
   "theorems": [
    "C33_radial_fields_partial",
    "C33_radial_closed_partial",
    "C33_axial_fields_partial",
    "C33_bem_operators_refuted",
    "C33_three_d_fields_refuted",
    "C33_three_d_mixed_refuted",
    "C33_interpolated_refuted"
   ],
   "note": "The property is false of the code for scaling, negation, subtraction and sum() of BEM fields, for + of 3D fields and for every operator on interpolated fields; it holds for + of radial BEM fields and all operators on solver.FieldRadialAxial."
  },
  {
   "property": "C34",
   "status": "proved",
   "theorems": [
    "C34_gradient",
    "C34_linear"
   ],
   "note": "Three-dimensional charges, real arithmetic, quadrature points as the code has them: directional derivatives of the potential along every line are minus the field; the field is divergence free off the quadrature points; both are linear in the charges. The radial field is treated separately (C56)."
  },
  {
   "property": "C35",
   "status": "proved",
   "theorems": [
    "C35_lorentz",
    "C35_lorentz_axial",
    "C35_acceleration",
    "C35_linear"
   ],
   "note": "Real arithmetic."
  },
  {
   "property": "C36",
   "status": "proved",
   "theorems": [
    "C36_runge_kutta",
    "C36_order",
    "C36_affine",
    "C36_uniform",
    "C36_free"
   ],
   "note": "The stages are those of a Runge-Kutta method whose tableau satisfies all the Butcher order conditions through order five (checked exactly over the rationals); exact on affine/uniform cases. Real arithmetic."
  },
  {
   "property": "C37",
   "status": "proved",
   "theorems": [
    "C37_trajectory",
    "C37_tracer"
   ],
   "note": "Any number of steps; real arithmetic."
  },
  {
   "property": "C38",
   "status": "proved",
   "theorems": [
    "C38_intersection",
    "C38_found",
    "C38_planes"
   ],
   "note": "Real arithmetic."
  },
  {
   "property": "C39",
   "status": "proved",
   "theorems": [
    "C39_direction",
    "C39_defined",
    "C39_length_irrelevant",
    "C39_energy",
    "C39_constants_agree",
    "C39_angles"
   ],
   "note": "Real arithmetic, CODATA 2018 constants as shipped in scipy."
  },
  {
   "property": "C40",
   "status": "proved",
   "theorems": [
    "C40_gauss",
    "C40_kronrod",
    "C40_triangle",
    "C40_points_and_weights"
   ],
   "note": "The decimal tables as exact rationals; all polynomials with arbitrary real coefficients."
  },
  {
   "property": "C41",
   "status": "proved",
   "theorems": [
    "C41_adaptive_sum",
    "C41_terminates",
    "C41_empty",
    "C41_constant"
   ],
   "note": "Over the reals."
  },
  {
   "property": "C42",
   "status": "proved",
   "theorems": [
    "C42_ring",
    "C42_tables"
   ],
   "note": ""
  },
  {
   "property": "C43",
   "status": "partial",
   "theorems": [
    "C43_outside",
    "C43_inside_partial"
   ],
   "note": "Last sample excluded (see C44); the field on the axis is minus the interpolated table of first derivatives."
  },
  {
   "property": "C44",
   "status": "partial",
   "theorems": [
    "C44_rows_exist_partial",
    "C44_last_sample_refuted",
    "C44_rows_exist_3d_partial",
    "C44_last_sample_3d_refuted"
   ],
   "note": "The property is false of the code exactly at the last sample: the C code reads one row past the end of the coefficient table."
  },
  {
   "property": "C45",
   "status": "proved",
   "theorems": [
    "C45_end_values",
    "C45_spline",
    "C45_smooth"
   ],
   "note": "scipy BPoly/PPoly are modelled from their algorithm."
  },
  {
   "property": "C46",
   "status": "proved",
   "theorems": [
    "C46_least_squares",
    "C46_exact"
   ],
   "note": "numpy.linalg.lstsq is represented by its documented result (a minimiser of the residual)."
  },
  {
   "property": "C47",
   "status": "proved",
   "theorems": [
    "C47_normals",
    "C47_areas",
    "C47_jacobians",
    "C47_points"
   ],
   "note": "Over the reals; the weights of the triangle rule sum to 0.500000000000001."
  },
  {
   "property": "C48",
   "status": "partial",
   "theorems": [
    "C48_refuted",
    "C48_example",
    "C48_in_the_users_mesh_partial"
   ],
   "note": "The property is false of the code: the conversion of a two-dimensional mesh to higher order turns closed boundaries outward again. It holds for meshes that are not converted."
  },
  {
   "property": "C49",
   "status": "partial",
   "theorems": [
    "C49_refuted",
    "C49_evaluation_refuted",
    "C49_three_d_tracer_refuted",
    "C49_radial_tracer_partial"
   ],
   "note": "The property is false of the code: evaluation never looks at the bounds, the 3D tracer ignores them and the radial tracer ignores z. Proved: refutations, and what the bounds do in x and y while tracing a radial field."
  },
  {
   "property": "C50",
   "status": "partial",
   "theorems": [
    "C50_surfaces",
    "C50_paths_partial",
    "C50_paths_refuted",
    "C50_iadd_refuted"
   ],
   "note": "False of the code for Path + PathCollection (AssertionError) and because += returns None and so rebinds the variable (both refuted). Proved: surfaces combine in any bracketing; the exact set of path expressions that work."
  },
  {
   "property": "C51",
   "status": "partial",
   "theorems": [
    "C51_second_kind",
    "C51_first_kind_partial",
    "C51_first_kind_refuted"
   ],
   "note": "False of the code for the first kind and k <= -1 (refuted): it divides by sqrt(k) where the identity has sqrt(1-k); for -1<k<0 the approximation is called outside its range. Proved for the second kind (all k<1) and for the first kind on [0,1), the arguments the library uses. K and E are defined as Riemann integrals."
  },
  {
   "property": "C52",
   "status": "partial",
   "theorems": [
    "C52_named_six_point_triangles_refuted"
   ],
   "note": "The property is false of the code: named six-point triangles raise ValueError in the constructor although width 6 is accepted for unnamed ones; C04 is the positive part."
  },
  {
   "property": "C53",
   "status": "partial",
   "theorems": [
    "C53_close_partial",
    "C53_close_closed_refuted"
   ],
   "note": "False of the code when the path already ends in its starting point: the zero length line has NaN coordinates and the joint assertion fails."
  },
  {
   "property": "C54",
   "status": "partial",
   "theorems": [
    "C54_rectangles_clockwise_refuted",
    "C54_rectangles_clockwise_partial"
   ],
   "note": "False of the code: all three rectangles are traversed clockwise around their axis."
  },
  {
   "property": "C55",
   "status": "partial",
   "theorems": [
    "C55_extrude_boundary",
    "C55_not_enclosed",
    "C55_revolve_boundary_partial",
    "C55_revolve_boundary_full",
    "C55_revolve_boundary_y_refuted",
    "C55_extrude_boundary_by_path_refuted"
   ],
   "note": "False of the code for revolve_boundary_y with a partial turn (the sides and the cap are on opposite sides) and for extrude_boundary_by_path, which always raises TypeError. Proved for extrude_boundary, for full turns and for partial turns about x and z."
  },
  {
   "property": "C56",
   "status": "proved",
   "theorems": [
    "C56_potential",
    "C56_gradient",
    "C56_code",
    "C56_error"
   ],
   "note": "Real arithmetic; the polynomial approximations are parameters (C56_code shows the code is an instance), their accuracy is C87."
  },
  {
   "property": "C57",
   "status": "proved",
   "theorems": [
    "C57_biot_savart"
   ],
   "note": "Real arithmetic; exact elliptic integrals on the range of the approximation are a hypothesis on the parameters (C87 bounds the difference for the code)."
  },
  {
   "property": "C58",
   "status": "proved",
   "theorems": [
    "C58_meshing_ends",
    "C58_zero_mesh_size"
   ],
   "note": "Model up to the call of the Mesh constructor (C04 treats that). C58_zero_mesh_size shows the hypothesis on the mesh size is needed."
  },
  {
   "property": "C59",
   "status": "proved",
   "theorems": [
    "C59_mesh_size"
   ],
   "note": "With breakpoints in both directions it is false, see C26_two_directions_refuted; the quantifier of the property excludes that case."
  },
  {
   "property": "C60",
   "status": "partial",
   "theorems": [
    "C60_conforming_refuted",
    "C60_box_refuted",
    "C60_extrude_partial",
    "C60_extrude_by_path_partial",
    "C60_rectangle_partial",
    "C60_cylinder_partial"
   ],
   "note": "The property is false of the code (refuted), even for a box (C60_box_refuted). It is proved for every line, circle or arc swept along a vector or along another line, circle or arc, for rectangles and for cylinders, at every constant mesh size: there the mesh is conforming. Spheres, disks and cones are open; surfaces made of several pieces can have hanging points at the breakpoints."
  },
  {
   "property": "C61",
   "status": "proved",
   "theorems": [
    "C61_radial_voltage",
    "C61_three_d_voltage",
    "C61_radial_magnetostatic_potential",
    "C61_three_d_magnetostatic_potential"
   ],
   "note": "For every linear solver and any integrators. The quadrature error terms are exact and appear in the statement; their size is not bounded here (C40, C66, C67)."
  },
  {
   "property": "C62",
   "status": "proved",
   "theorems": [
    "C62_radial_dielectric",
    "C62_radial_magnetizable",
    "C62_three_d_dielectric",
    "C62_three_d_magnetizable"
   ],
   "note": "K other than -1. As C61 for the quadrature error terms."
  },
  {
   "property": "C63",
   "status": "proved",
   "theorems": [
    "C63_total_current"
   ],
   "note": "Relative error 4e-15 from the tabulated quadrature weights."
  },
  {
   "property": "C64",
   "status": "proved",
   "theorems": [
    "C64_three_d",
    "C64_radial"
   ],
   "note": "For curved lines the area is the 16-point rule applied to radius times speed; its error is bounded for straight lines (C40 for polynomials)."
  },
  {
   "property": "C65",
   "status": "proved",
   "theorems": [
    "C65_automatic_choice"
   ],
   "note": ""
  },
  {
   "property": "C66",
   "status": "partial",
   "theorems": [
    "C66_potential_partial",
    "C66_row",
    "C66_centroid_partial",
    "C66_coplanar_row_refuted"
   ],
   "note": "The exact value of the one-dimensional integral is the surface integral when no row of the triangle (extended to a line) passes the target within 1e-12; the error of the adaptive integrator is C31/C53. At the centroid of the triangle itself (the diagonal of the 3D solver) the value is within 4e-12 (asinh(1e12 a) + slenderness + 1) of the limit potential. False for rows in line with the target on its negative side (refuted: sign)."
  },
  {
   "property": "C67",
   "status": "partial",
   "theorems": [
    "C67_flux_partial",
    "C67_small_geometry_refuted"
   ],
   "note": "Proved for targets farther than sqrt 1e-9 from the rows; the absolute limit makes it false for geometry of micrometres (refuted, with the actual adaptive integrator)."
  },
  {
   "property": "C68",
   "status": "proved",
   "theorems": [
    "C68_comparison",
    "C68_orientation",
    "C68_outward"
   ],
   "note": "Over the reals. The condition on the edges is needed: C68_apart_needed."
  },
  {
   "property": "C69",
   "status": "proved",
   "theorems": [
    "C69_outside",
    "C69_gradient",
    "C69_axis",
    "C69_rotation"
   ],
   "note": "Over the reals. Between 0 and 1e-10 from the axis the code returns the field of the axis, which is not claimed to be the gradient there; the last sample is excluded (C44)."
  },
  {
   "property": "C70",
   "status": "proved",
   "theorems": [
    "C70_coefficients"
   ],
   "note": "Over the reals, with the factorials as tabulated. The coefficients C and S are determined by the first clause (Fourier coefficients of the derivatives); the parity clause is proved, not assumed."
  },
  {
   "property": "C71",
   "status": "proved",
   "theorems": [
    "C71_transform"
   ],
   "note": "For every mesh and every map with finite results; the directions of elements in named groups are redone by the constructor (C09-C11), hence the alternatives with reversed elements. What move, rotate and mirror do to a point is C12."
  },
  {
   "property": "C72",
   "status": "proved",
   "theorems": [
    "C72_paths",
    "C72_surfaces",
    "C72_naming"
   ],
   "note": "The discretisation of a member (points and elements) is arbitrary. For surfaces the area test is assumed to look only at the coordinates and not at the order of the last two corners."
  },
  {
   "property": "C73",
   "status": "partial",
   "theorems": [
    "C73_single_partial",
    "C73_refuted"
   ],
   "note": "Holds for a single path or surface; false for collections, because adding meshes always corrects the normals of named groups (C73_refuted)."
  },
  {
   "property": "C74",
   "status": "proved",
   "theorems": [
    "C74_remove_lines",
    "C74_remove_triangles"
   ],
   "note": ""
  },
  {
   "property": "C75",
   "status": "proved",
   "theorems": [
    "C75_self_potential",
    "C75_unique",
    "C75_vertex"
   ],
   "note": "Real arithmetic. Potential at a point of the triangle is the limit from either side; at a vertex the triangle without a similar tip of relative size e has exactly (1-e) times the returned value."
  },
  {
   "property": "C76",
   "status": "proved",
   "theorems": [
    "C76_size",
    "C76_factor",
    "C76_enlarged",
    "C76_sphere",
    "C76_extrude",
    "C76_rectangle"
   ],
   "note": "C76_size is C59 for the size that the arguments ask for (breakpoints in at most one direction); enlargement for all surfaces"
  },
  {
   "property": "C77",
   "status": "proved",
   "theorems": [
    "C77_rigid",
    "C77_position_dependent",
    "C77_move_rotate_mirror",
    "C77_path"
   ],
   "note": "surface meshes up to the call of the Mesh constructor (points and triangles handed to it), exact real arithmetic"
  },
  {
   "property": "C78",
   "status": "proved",
   "theorems": [
    "C78_built",
    "C78_given",
    "C78_samples",
    "C78_accuracy"
   ],
   "note": "exact real arithmetic; the last sample is excluded (there the code reads past the table: C44)"
  },
  {
   "property": "C79",
   "status": "partial",
   "theorems": [
    "C79_default_refuted",
    "C79_default_partial"
   ],
   "note": "False of the code: the default is a fifth of the number of charges, so that fields with fewer than 10 electric and 10 magnetic charges, in particular fields of coils alone, raise; the positive part says exactly when it works."
  },
  {
   "property": "C80",
   "status": "proved",
   "theorems": [
    "C80_truncation",
    "C80_radial"
   ],
   "note": "exact real arithmetic; the potential of the rings is what the radial field reports up to the approximation of the elliptic integral (C56)"
  },
  {
   "property": "C81",
   "status": "proved",
   "theorems": [
    "C81_potential"
   ],
   "note": "exact real arithmetic; the error of scipy's cubic spline of the eighth derivative is a parameter of the bound"
  },
  {
   "property": "C82",
   "status": "proved",
   "theorems": [
    "C82_rings",
    "C82_loops",
    "C82_radial"
   ],
   "note": "exact real arithmetic; C82_radial and C57: the field of rings and loops is what the radial field reports up to the approximation of the elliptic integrals"
  },
  {
   "property": "C83",
   "status": "proved",
   "theorems": [
    "C83_field"
   ],
   "note": "exact real arithmetic; the errors of scipy's cubic splines of the seventh and eighth derivative are parameters of the bound"
  },
  {
   "property": "C84",
   "status": "proved",
   "theorems": [
    "C84_local",
    "C84_three_d",
    "C84_radial"
   ],
   "note": "exact real arithmetic; for fields interpolated on the axis the smoothness of the force is a hypothesis (smooth_along)"
  },
  {
   "property": "C85",
   "status": "proved",
   "theorems": [
    "C85_global",
    "C85_three_d",
    "C85_radial"
   ],
   "note": "exact real arithmetic; the true trajectory is given (existence of solutions of the equation of motion is not part of the model); for fields interpolated on the axis the smoothness of the force is a hypothesis (smooth_along)"
  },
  {
   "property": "C86",
   "status": "proved",
   "theorems": [
    "C86_ends",
    "C86_three_d",
    "C86_radial",
    "C86_axial"
   ],
   "note": "exact real arithmetic; \"returns\" is: the loops of the model end for all large enough fuel"
  },
  {
   "property": "C87",
   "status": "proved",
   "theorems": [
    "C87_first_kind",
    "C87_second_kind",
    "C87_ellipk",
    "C87_ellipe",
    "C87_potential",
    "C87_field",
    "C87_current"
   ],
   "note": "exact real arithmetic for the evaluation of the polynomials and the logarithm; the bound 3e-13 is obtained by a computation in the kernel with integers (interval cells), the true maximum is about 2.2e-13; weights contain 1/distance to the axis for the radial component, as the code divides by it"
  },
  {
   "property": "C88",
   "status": "partial",
   "theorems": [
    "C88_fields",
    "C88_axial",
    "C88_geometry",
    "C88_matrix",
    "C88_elements_partial",
    "C88_series_partial",
    "C88_refuted"
   ],
   "note": "holds without conditions for 18 functions; false of the code for charge_radial (fewer than four vertices), position_and_jacobian_radial (points of two numbers or not contiguous), higher_order_normal_radial (vertices of two numbers), plane_intersection (no positions) and the four *_derivs functions (a height at or after the last sample, or one sample): C88_refuted exhibits the accesses, the _partial theorems give conditions under which they are safe; trace_particle_*: C91 and C92; self_potential_radial is not in the memory model"
  },
  {
   "property": "C89",
   "status": "partial",
   "theorems": [
    "C89_fields",
    "C89_currents",
    "C89_axial",
    "C89_geometry",
    "C89_elements",
    "C89_coefficients_3d",
    "C89_plane",
    "C89_buffers",
    "C89_matrix",
    "C89_series",
    "C89_layout",
    "C89_layout_3d",
    "C89_strided_matrix_refuted",
    "C89_none_refuted",
    "C89_integer_point_refuted",
    "C89_one_row_refuted"
   ],
   "note": "false of the code in four cases: a matrix that is not contiguous is not filled (the wrapper passes a copy), field_3d_derivs returns None, current_field rejects integer points, fill_matrix_radial rejects a single row; with a single sample plane_intersection raises ValueError (the assertion of the C code is compiled away)"
  },
  {
   "property": "C90",
   "status": "proved",
   "theorems": [
    "C90_series",
    "C90_samples",
    "C90_coefficients_differentiable"
   ],
   "note": "exact real arithmetic; the interpolation of the coefficients between the samples enters as an error eps of the table; points nearer than 1e-10 to the axis but not on it excluded (the code uses the field of the axis there)"
  },
  {
   "property": "C91",
   "status": "proved",
   "theorems": [
    "C91_radial",
    "C91_three_d",
    "C91_radial_axial",
    "C91_three_d_axial",
    "C91_constructors"
   ],
   "note": "refinement of the model of the C and Python code on memory to TracingModel; for the two axial tracers only traces that have a result (the other case is the out-of-bounds read of C44); lifetime of the copies that the structs point to not modelled"
  },
  {
   "property": "C92",
   "status": "partial",
   "theorems": [
    "C92_rows_partial",
    "C92_columns_refuted",
    "C92_columns_no_force_refuted",
    "C92_integers_refuted"
   ],
   "note": "false of the code: set_bounds keeps the memory order and the dtype of its argument and the C code is given the bare address, so bounds stored column by column (np.array([lo, hi]).T) are read in the wrong order (for a symmetric box the field disappears) and bounds of integers are read as doubles; proved for float64 bounds stored row by row"
  },
  {
   "property": "C93",
   "status": "proved",
   "theorems": [
    "C93_three_d",
    "C93_motions",
    "C93_radial",
    "C93_trace"
   ],
   "note": "exact real arithmetic; the third point oracle of the higher order mesh is not moved: in radial problems both solved meshes are given; numpy.linalg.solve and the integrators are arbitrary functions; traces are moved by displacements only, because the step is chosen by the largest component of the error, which a rotation changes; in three dimensions currents are excluded (add_current raises there)"
  },
  {
   "property": "C94",
   "status": "proved",
   "theorems": [
    "C94_exact",
    "C94_magnetic",
    "C94_arrival",
    "C94_computed",
    "C94_speed_computed"
   ],
   "note": "exact real arithmetic; electric fields of three-dimensional solutions only (the field of radial solutions is built on approximated elliptic integrals, so it is only nearly the gradient of their potential); the constant of the error bound depends on the exact trajectory"
  },
  {
   "property": "C95",
   "status": "proved",
   "theorems": [
    "C95_solution",
    "C95_trace",
    "C95_axial_trace",
    "C95_optics"
   ],
   "note": "exact real arithmetic; numpy.linalg.solve and the integrators are arbitrary functions with the properties of linear_solver; for axial fields that their electric and magnetic values scale is a hypothesis, because scipy CubicSpline is an arbitrary function of the model; floating point scaling by powers of two not modelled"
  },
  {
   "property": "C96",
   "status": "proved",
   "theorems": [
    "C96_rotated",
    "C96_angular_momentum",
    "C96_computed",
    "C96_meridional",
    "C96_quarter_turns",
    "C96_axial"
   ],
   "note": "exact real arithmetic; computed trajectories turn along exactly for quarter turns only, because the step is chosen by the largest component of the error (for other angles C85 and C96_rotated apply); conservation of the canonical angular momentum in magnetic fields (Busch) not proved"
  },
  {
   "property": "C97",
   "status": "proved",
   "theorems": [
    "C97_trace",
    "C97_configuration",
    "C97_plane"
   ],
   "note": "exact real arithmetic; numpy.linalg.solve and the integrators are arbitrary functions as in C93; the magnetic field of a mirrored magnet is turned and reversed (turned_field), C97_configuration covers mirrorings of electrostatic problems"
  },
  {
   "property": "C98",
   "status": "proved",
   "theorems": [
    "C98_numbering",
    "C98_as_given"
   ],
   "note": "exact real arithmetic (a sum over coils in another order differs by rounding in floating point); numpy.linalg.solve and the integrators are arbitrary functions; for two-dimensional meshes of ordinary lines the hypothesis same_problem is about the two meshes that are solved (after the conversion to higher order lines); the order of the elements themselves is kept"
  },
  {
   "property": "C99",
   "status": "proved",
   "theorems": [
    "C99_reversal",
    "C99_retraced",
    "C99_axial",
    "C99_computed"
   ],
   "note": "exact real arithmetic; that a trajectory avoids the charges (and, in radial fields, the axis) is a hypothesis of C99_computed, as in C85; the electron sent back starts at the end of the exact trajectory"
  }
 ]
}