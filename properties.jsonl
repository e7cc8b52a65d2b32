{"id": "C01", "title": "Mesh construction keeps the geometry of every element", "statement": "Building a Mesh never moves an element: the k-th line and the k-th surviving triangle of the new mesh join points whose coordinates are the coordinates the caller supplied for that element, each coordinate with the low 16 bits of its mantissa cleared and nothing else changed; at most the order of the vertices inside an element is reversed.", "quantifier": "every list of points (any float64 coordinates without NaN), every list of lines (2 or 4 points) and triangles (3 points), every grouping, whatever the outcome of the floating-point area and outwardness tests", "why_tests_cant": "the renumbering of points depends on the sort order of all coordinates at once; tests see a handful of meshes, a wrong permutation shows up only for particular coincidences of coordinates", "anchors": ["traceon/mesher.py:Mesh.__init__", "traceon/mesher.py:Mesh._deduplicate_points", "traceon/mesher.py:Mesh._remove_degenerate_triangles"]}
{"id": "C02", "title": "No duplicate points", "statement": "In a constructed Mesh no two points compare equal, the points are in strictly increasing (z,y,x) order, and every supplied point is present (rounded): two meshes built from permutations or repetitions of the same points have the same point array.", "quantifier": "all point arrays without NaN", "why_tests_cant": "needs all arrangements of equal and nearly equal points, of any number", "anchors": ["traceon/mesher.py:Mesh._deduplicate_points"]}
{"id": "C03", "title": "Named groups survive construction", "statement": "After construction each named group holds, in the original order, exactly the elements the caller put in it, except the triangles that were removed because their area is below 1e-12; no group gains, loses or swaps any other element and no group name is lost.", "quantifier": "all meshes, any number of overlapping groups, any set of degenerate triangles", "why_tests_cant": "index remapping by cumulative sums is correct or not for every pattern of removed triangles; 2^n patterns", "anchors": ["traceon/mesher.py:Mesh._remove_degenerate_triangles"]}
{"id": "C04", "title": "Mesh construction always yields a valid mesh", "statement": "Constructing a Mesh from lines of two or four points and triangles of three points, with element indices that lie inside the point array and groups that lie inside the element arrays, never raises, terminates, and yields a mesh all of whose element and group indices are valid again.", "quantifier": "all well-formed inputs with straight triangles, lines of order 2 or 4; every result of the floating point tests", "why_tests_cant": "termination and absence of exceptions of the graph walk over arbitrary topologies", "anchors": ["traceon/mesher.py:Mesh.__init__", "traceon/mesher.py:_reorient_lines", "traceon/mesher.py:_reorient_triangles"]}
{"id": "C05", "title": "Adding meshes is the union of their elements and groups", "statement": "mesh1 + mesh2 contains the elements of mesh1 followed by those of mesh2 at their own coordinates; a group of the sum is the group of mesh1 followed by the group of the same name of mesh2; nothing else is created or lost, and the sum of two valid meshes of the same order never raises.", "quantifier": "all pairs of valid meshes", "why_tests_cant": "index offsets must be right for every combination of sizes, shared points and shared names", "anchors": ["traceon/mesher.py:Mesh.__add__", "traceon/mesher.py:Mesh._merge_dicts", "traceon/mesher.py:_concat_arrays"]}
{"id": "C06", "title": "The points of a sum of meshes do not depend on order or bracketing", "statement": "(a+b)+c, a+(b+c) and b+a, c+... have the same point array, adding the empty mesh leaves points, elements and groups unchanged, and the constructed point array is a fixed point of construction (building a mesh from the arrays of a mesh renumbers nothing).", "quantifier": "all triples of valid meshes", "why_tests_cant": "an algebraic law over all meshes", "anchors": ["traceon/mesher.py:Mesh.__add__", "traceon/mesher.py:Mesh._deduplicate_points"]}
{"id": "C07", "title": "Extracting a group", "statement": "mesh.extract_physical_group(name) contains exactly the distinct elements of that group at their own coordinates, one element per member, all of them in the group 'name', and no point that is not used by such an element; an unknown name is rejected.", "quantifier": "all valid meshes and names", "why_tests_cant": "index compression by mask and cumulative sum for every subset of points", "anchors": ["traceon/mesher.py:Mesh.extract_physical_group"]}
{"id": "C08", "title": "Connected pieces of an electrode", "statement": "The decomposition of a group of elements used for orienting normals is a partition of the elements into non-empty classes, and two elements are in the same class exactly when they are linked by a chain of elements in which consecutive ones share a vertex.", "quantifier": "all lists of elements", "why_tests_cant": "reachability in arbitrary graphs; loop termination", "anchors": ["traceon/mesher.py:_get_connected_elements", "traceon/mesher.py:_compute_vertex_to_indices"]}
{"id": "C09", "title": "Consistent line orientation", "statement": "For every connected set of lines that can be consistently directed (no vertex is used by more than two lines), reorienting gives a set in which every two lines meeting in one vertex are directed head to tail, changing nothing but the direction of lines; the walk always terminates.", "quantifier": "all connected sets of lines with vertices of degree at most two (open and closed polylines), any starting directions", "why_tests_cant": "the stack-based walk mutates the lines while walking over them; correct for all lengths, numberings and initial directions or not at all", "anchors": ["traceon/mesher.py:_reorient_lines", "traceon/mesher.py:_line_orientation_equal"]}
{"id": "C10", "title": "Consistent triangle orientation", "statement": "For every edge-connected set of triangles that can be consistently oriented, reorienting gives a set in which any two triangles with a common edge traverse it in opposite directions, changing nothing but vertex order inside triangles; the walk terminates.", "quantifier": "all edge-connected orientable triangle sets (at most two triangles per edge), any initial orientation", "why_tests_cant": "same as for lines but over surfaces; bounded tests cannot cover all topologies", "anchors": ["traceon/mesher.py:_reorient_triangles", "traceon/backend/triangle.c:triangle_orientation_is_equal"]}
{"id": "C11", "title": "Normals point outward", "statement": "For a closed polyline the outwardness test equals the sign of the enclosed oriented area: it does not depend on where the shape is placed, reversing all lines negates it, and after construction every closed named loop of non-zero area encloses positive area (normals outward), after the inward variant negative area. The same for closed triangle surfaces and enclosed volume.", "quantifier": "all closed polylines / closed triangulated surfaces with real coordinates", "why_tests_cant": "an identity over all polygons and polyhedra", "anchors": ["traceon/mesher.py:_are_line_normals_pointing_outwards", "traceon/mesher.py:_are_triangle_normals_pointing_outwards", "traceon/mesher.py:_ensure_line_orientation", "traceon/mesher.py:_ensure_triangle_orientation", "traceon/backend/utilities_2d.c:normal_2d"]}
{"id": "C12", "title": "Moving, rotating and mirroring are rigid motions", "statement": "move, rotate and mirror_* preserve all distances; rotate keeps the given origin and the rotation axis fixed, is counter clockwise (right handed), angles about one axis add up and the opposite angle undoes it; each mirror is its own inverse; opposite moves cancel. rotate rejects two non-zero angles.", "quantifier": "all points, angles, origins and displacement vectors", "why_tests_cant": "real identities over all angles", "anchors": ["traceon/mesher.py:GeometricObject.move", "traceon/mesher.py:GeometricObject.rotate", "traceon/mesher.py:GeometricObject.mirror_xz", "traceon/mesher.py:GeometricObject.mirror_yz", "traceon/mesher.py:GeometricObject.mirror_xy"]}
{"id": "C13", "title": "Rotating by zero", "statement": "rotate accepts every single-axis rotation, including a rotation by angle zero, which returns the object unchanged.", "quantifier": "all calls with at most one non-zero angle", "why_tests_cant": "holds for all angles except one exceptional point (the code leaves a variable unassigned there)", "anchors": ["traceon/mesher.py:GeometricObject.rotate"]}
{"id": "C14", "title": "flip_normals reverses every normal", "statement": "mesh.flip_normals() returns a mesh with the same elements and groups in which the direction of every line and triangle is reversed, also for elements in named groups.", "quantifier": "all valid meshes", "why_tests_cant": "the effect depends on a default argument several calls away; it must hold for all groupings", "anchors": ["traceon/mesher.py:Mesh.flip_normals", "traceon/mesher.py:Mesh.__init__"]}
{"id": "C15", "title": "Mesh export and import", "statement": "Converting a mesh to meshio and back gives the same points and elements in the same order, and the named groups are retained.", "quantifier": "all valid meshes", "why_tests_cant": "round trip over all meshes", "anchors": ["traceon/mesher.py:Mesh.to_meshio", "traceon/mesher.py:Mesh.from_meshio"]}
{"id": "C16", "title": "Raising straight lines to higher order", "statement": "Converting a mesh of straight lines to higher-order lines keeps endpoints, order and grouping of all lines and adds for each line the points at one third and two thirds, so that the cubic element through them is the same straight segment with constant speed.", "quantifier": "all meshes of straight lines; real coordinates", "why_tests_cant": "identity over all segments and parameter values", "anchors": ["traceon/mesher.py:Mesh._lines_to_higher_order", "traceon/mesher.py:Mesh._to_higher_order_mesh", "traceon/backend/utilities_2d.c:position_and_jacobian_radial"]}
{"id": "C17", "title": "Discretisation of a path", "statement": "With breakpoints in increasing order, the parameters at which a path is sampled start at 0, end at the path length, strictly increase, contain every breakpoint, have steps of at most mesh_size, contain at least three intervals per smooth section, and for higher order come in multiples of three plus one.", "quantifier": "all path lengths, sorted breakpoint lists (with repetitions), mesh sizes and mesh size factors", "why_tests_cant": "real arithmetic with ceil and arbitrary breakpoint lists", "anchors": ["traceon/geometry.py:discretize_path"]}
{"id": "C18", "title": "Meshing a path", "statement": "The mesh of a path consists of elements that together run along the path from start to end: element k joins sample k to sample k+1 (higher order: samples 3k, 3k+3 with 3k+1, 3k+2 in between), every sample is used, and the name applies to all elements.", "quantifier": "all paths, both element orders", "why_tests_cant": "for all numbers of samples", "anchors": ["traceon/geometry.py:Path.mesh"]}
{"id": "C19", "title": "Concatenation of paths", "statement": "(p >> q)(t) follows p and then q without a jump, is defined on exactly [0, |p|+|q|], and its breakpoints are those of p, the joint, and those of q at their position along the combined path, so that every kink of q is included in the mesh.", "quantifier": "all pairs of paths with matching ends", "why_tests_cant": "all breakpoint positions; a missed shift changes nothing for paths without breakpoints, which is what tests use", "anchors": ["traceon/geometry.py:Path.__rshift__"]}
{"id": "C20", "title": "Cutting and phase-shifting paths", "statement": "cut(l) gives two paths that together retrace the original at the same parameters with the breakpoints distributed at their own positions; add_phase(l) traverses the same closed path starting l further on, with the same length and with all original breakpoints plus the old starting point, in increasing order.", "quantifier": "all paths, cut positions and phases", "why_tests_cant": "real arithmetic with modulo over all positions", "anchors": ["traceon/geometry.py:Path.cut", "traceon/geometry.py:Path.add_phase"]}
{"id": "C21", "title": "Primitive curves", "statement": "Path.line, arc and circle_* start and end where documented, arcs stay at constant distance from their centre, and the path parameter is the true length: the curve is traversed with unit speed. rectangles and apertures pass through their documented corners.", "quantifier": "all real parameters (non-degenerate)", "why_tests_cant": "real analysis identity", "anchors": ["traceon/geometry.py:Path.line", "traceon/geometry.py:Path.arc", "traceon/geometry.py:Path.circle_xz", "traceon/geometry.py:Path.rectangle_xz", "traceon/geometry.py:Path.aperture"]}
{"id": "C22", "title": "Surfaces of revolution", "statement": "Revolving a path about an axis gives a surface whose every point has the axial coordinate and the distance to the axis of the corresponding path point, starts at the path itself, ends at the path rotated by the given angle, and turns in the same (anti-clockwise) sense as rotate() about that axis.", "quantifier": "all paths, axes and angles", "why_tests_cant": "real identities; the sense of rotation matters only for non-full angles", "anchors": ["traceon/geometry.py:Path.revolve_x", "traceon/geometry.py:Path.revolve_y", "traceon/geometry.py:Path.revolve_z", "traceon/geometry.py:Surface.revolve_boundary_y"]}
{"id": "C23", "title": "Surfaces from boundaries, extrusion, sphere and disk", "statement": "spanned_by_paths has its two paths as edges; extrude and extrude_by_path translate the path; the points of sphere(r) have norm r; a disk of radius r lies within r of its centre in its plane; from_boundary_paths has the four given paths as its boundary.", "quantifier": "all paths and real parameters", "why_tests_cant": "identities between functions; special cases (straight edges) hide the general failure", "anchors": ["traceon/geometry.py:Surface.spanned_by_paths", "traceon/geometry.py:Surface.from_boundary_paths", "traceon/geometry.py:Surface.sphere", "traceon/geometry.py:Path.extrude", "traceon/geometry.py:Path.extrude_by_path"]}
{"id": "C24", "title": "Subdivision covers the whole surface", "statement": "The quadrilaterals into which the mesher divides the parameter rectangle of a surface tile it: they have disjoint interiors and cover every parameter value, so the triangle mesh has no holes and no overlaps.", "quantifier": "all surfaces and mesh size functions for which the subdivision ends", "why_tests_cant": "depends on the whole history of split decisions", "anchors": ["traceon/mesher.py:_subdivide_quads", "traceon/mesher.py:_mesh_subsections_to_quads"]}
{"id": "C25", "title": "Mesher point bookkeeping", "statement": "Within one surface section the mesher evaluates the surface at most once per parameter pair: two grid positions of different refinement depth that denote the same parameters refer to the same point once normalised, and every point index produced refers to the point of the surface at that grid position.", "quantifier": "all surfaces and all sequences of requests", "why_tests_cant": "history dependent caching at several depths", "anchors": ["traceon/mesher.py:PointStack.to_point_index", "traceon/mesher.py:PointStack.add_level", "traceon/mesher.py:PointStack.normalize_to_depth"]}
{"id": "C26", "title": "Sections are stitched along their common edge", "statement": "When a surface has breakpoints in both directions, the mesher identifies points along those edges that neighbouring sections really share.", "quantifier": "all surfaces with any number of breakpoints in u and v", "why_tests_cant": "index arithmetic is right whenever one direction has no breakpoints; only the mixed case shows an error", "anchors": ["traceon/mesher.py:_mesh", "traceon/mesher.py:_copy_over_edge", "traceon/geometry.py:Surface._sections"]}
{"id": "C27", "title": "Excitation bookkeeping", "statement": "Assigning a voltage, current, dielectric, magnetizable or boundary condition to a name succeeds exactly when the name is an electrode of the mesh (and for currents the geometry is radial and it has triangles); afterwards each name carries the last condition assigned to it and other names are unaffected.", "quantifier": "all sequences of calls", "why_tests_cant": "history dependent state", "anchors": ["traceon/excitation.py:Excitation.add_voltage", "traceon/excitation.py:Excitation.add_current", "traceon/excitation.py:Excitation.add_dielectric"]}
{"id": "C28", "title": "Superposition split", "statement": "Splitting an excitation for superposition gives one excitation per electrode with non-zero voltage or current, in which that electrode has value one and every other voltage or current is zero while dielectrics, magnetizables and boundaries are retained; weighting them with the original values and summing gives back the original.", "quantifier": "all excitations with constant voltages and currents", "why_tests_cant": "all combinations of excitation types over any number of names", "anchors": ["traceon/excitation.py:Excitation._split_for_superposition"]}
{"id": "C29", "title": "Active elements", "statement": "The elements handed to the solver are exactly the elements whose group has an excitation of the requested kind, each once, in mesh order, and for each excited name the returned indices select exactly that group's elements among them.", "quantifier": "all meshes, groups (overlapping too) and excitations", "why_tests_cant": "index compression for every subset", "anchors": ["traceon/excitation.py:Excitation._get_active_elements"]}
{"id": "C30", "title": "Superposition of solutions", "statement": "For each electrode solve_direct_superposition returns the field of that electrode alone at unit excitation; scaling the fields by the applied voltages/currents and adding them equals the solution of solve_direct for the whole excitation.", "quantifier": "all excitations, including mixed electric/magnetic ones, any invertible influence matrix", "why_tests_cant": "linear-algebra identity for all matrices plus dictionary bookkeeping for all name sets", "anchors": ["traceon/solver.py:solve_direct_superposition", "traceon/solver.py:Solver.get_right_hand_side", "traceon/solver.py:Solver.solve_matrix"]}
{"id": "C31", "title": "Parallel work distribution", "statement": "Splitting work over threads gives the same list as doing it sequentially, in the same order, for every number of threads and every interleaving of the threads.", "quantifier": "all argument lists, thread counts >= 1, schedules", "why_tests_cant": "schedules", "anchors": ["traceon/util.py:split_collect", "traceon/util.py:get_number_of_threads"]}
{"id": "C32", "title": "Every matrix row is computed", "statement": "The influence matrix is completely filled for every number of elements and every number of threads: each row is written by exactly one thread, and no row is left zero.", "quantifier": "all matrix sizes N >= 1 and thread counts", "why_tests_cant": "depends on the arithmetic relation between N and the number of cores of the machine", "anchors": ["traceon/solver.py:Solver.get_matrix", "traceon/backend/__init__.py:fill_matrix_radial", "traceon/backend/__init__.py:fill_matrix_3d"]}
{"id": "C33", "title": "Field arithmetic", "statement": "Adding fields adds potentials and field values pointwise, multiplying by a number scales them, negation and subtraction are consistent with that, and these operations are available for every field type that documents them.", "quantifier": "all fields and points", "why_tests_cant": "linearity over all charge distributions; class dispatch", "anchors": ["traceon/solver.py:EffectivePointCharges", "traceon/solver.py:FieldBEM", "traceon/solver.py:Field3D_BEM", "traceon/solver.py:FieldRadialAxial", "traceon/interpolation.py"]}
{"id": "C34", "title": "Electric field is minus the gradient of the potential", "statement": "In three dimensions the reported electrostatic (magnetostatic) field is minus the gradient of the reported potential at every point away from the charges, and both are linear in the charges.", "quantifier": "all charge distributions and points off the charges", "why_tests_cant": "a derivative identity", "anchors": ["traceon/backend/three_d.c:potential_3d", "traceon/backend/three_d.c:field_3d", "traceon/backend/three_d_point.c"]}
{"id": "C35", "title": "Lorentz force", "statement": "The acceleration used by the tracers is the sum of the electric part and (charge/mass) v x B: the magnetic part is perpendicular to the velocity (does no work), is linear, and vanishes for a particle at rest.", "quantifier": "all fields and velocities", "why_tests_cant": "real identity", "anchors": ["traceon/backend/utilities_3d.c:combine_elec_magnetic_field", "traceon/backend/tracing.c"]}
{"id": "C36", "title": "Runge-Kutta-Fehlberg step", "statement": "One step of the tracer with coefficients as in the code is exact with zero error estimate in a constant force field, satisfies the row-sum and order conditions of a fifth order method with an embedded fourth order one, so that free motion and uniformly accelerated motion are reproduced exactly whatever the step sizes.", "quantifier": "all initial conditions, step sizes and numbers of steps", "why_tests_cant": "algebraic identities between tabulated coefficients", "anchors": ["traceon/backend/tracing.c:trace_particle", "traceon/backend/tracing.c:produce_new_y", "traceon/backend/tracing.c:produce_new_k"]}
{"id": "C37", "title": "Traced trajectories", "statement": "The returned trajectory starts at the initial state, times strictly increase, no step exceeds the maximum step, every position except possibly the last is inside the bounds, the last is outside unless the step limit ended the trace; splitting a long trace in blocks of fixed size neither drops nor repeats a sample.", "quantifier": "all force fields, bounds, tolerances and lengths", "why_tests_cant": "loop invariant over unbounded adaptive stepping", "anchors": ["traceon/backend/tracing.c:trace_particle", "traceon/backend/__init__.py:trace_particle_wrapper"]}
{"id": "C38", "title": "Plane intersection", "statement": "The reported intersection of a trajectory with a plane lies exactly in the plane, is a convex combination of two consecutive samples (positions and velocities alike), lies on the last crossing, and is reported exactly when some consecutive pair of samples lies on opposite sides.", "quantifier": "all trajectories and planes", "why_tests_cant": "all sign patterns; boundary cases at exactly zero", "anchors": ["traceon/backend/tracing.c:plane_intersection", "traceon/tracing.py:plane_intersection", "traceon/tracing.py:axis_intersection"]}
{"id": "C39", "title": "Initial velocity and energy", "statement": "velocity_vec(eV, direction) points along the direction with norm eV whatever the length of the direction, and the SI speed used for tracing has kinetic energy eV for the given mass.", "quantifier": "all energies, directions, masses", "why_tests_cant": "real identity", "anchors": ["traceon/tracing.py:velocity_vec", "traceon/tracing.py:_convert_velocity_to_SI"]}
{"id": "C40", "title": "Integration rules", "statement": "The tabulated Gauss, Gauss-Kronrod and triangle rules integrate all polynomials up to their degree over the reference element to within the table precision, their weights are positive and their points lie inside the element.", "quantifier": "all polynomials up to the degree of the rule", "why_tests_cant": "tables are correct for all polynomials or none", "anchors": ["traceon/backend/utilities_3d.c", "traceon/backend/utilities_2d.c", "traceon/backend/kronrod.c"]}
{"id": "C41", "title": "Adaptive integration", "statement": "The adaptive integrator returns the sum of the 15-point rule over a partition of the interval into sub-intervals on each of which the 7- and 15-point rules agree within the absolute or relative tolerance; it terminates for every bounded integrand and positive absolute tolerance, returns 0 for an empty interval, and integrates constants to table precision on any interval.", "quantifier": "all integrands and intervals", "why_tests_cant": "recursion over all subdivision patterns", "anchors": ["traceon/backend/kronrod.c:kronrod_adaptive"]}
{"id": "C42", "title": "Axial derivatives of ring charges", "statement": "The tabulated axial derivatives of the potential of a ring of charge (current) satisfy the recurrence of the exact derivatives: entry n is the n-th derivative along the axis of the closed form potential.", "quantifier": "all radii, positions, orders", "why_tests_cant": "holds for all orders by induction or not", "anchors": ["traceon/backend/radial_ring.c:axial_derivatives_radial_ring", "traceon/backend/radial_ring.c:current_axial_derivatives_radial_ring"]}
{"id": "C43", "title": "Radial series", "statement": "The potential and field evaluated from axial derivatives are consistent: on the axis they equal the interpolated axial potential and minus its derivative, the radial field is exactly minus the radial derivative of the potential, the field is unchanged by rotation about the axis, and outside the tabulated range they vanish.", "quantifier": "all points and derivative tables", "why_tests_cant": "identities for all tables and points", "anchors": ["traceon/backend/radial.c:potential_radial_derivs", "traceon/backend/radial.c:field_radial_derivs"]}
{"id": "C44", "title": "Series evaluation stays inside its table", "statement": "Evaluating an axial-series field at any point, including the last tabulated z, reads only rows of the coefficient table that exist.", "quantifier": "all z", "why_tests_cant": "boundary value", "anchors": ["traceon/backend/radial.c:potential_radial_derivs", "traceon/backend/radial.c:field_radial_derivs", "traceon/interpolation.py"]}
{"id": "C45", "title": "Quintic interpolation of axial derivatives", "statement": "On every interval the interpolating polynomial takes the tabulated value, first and second derivative at both ends, so the interpolated potential is twice continuously differentiable across table entries.", "quantifier": "all tables and intervals", "why_tests_cant": "algebraic identity over all data", "anchors": ["traceon/interpolation.py:_quintic_spline_coefficients"]}
{"id": "C46", "title": "Focus position", "statement": "focus_position returns the least-squares intersection of the straight lines through the final positions: if all rays pass through one point and are not all parallel, that point is returned exactly.", "quantifier": "all ray bundles", "why_tests_cant": "linear algebra over any number of rays", "anchors": ["traceon/focus.py:focus_position"]}
{"id": "C47", "title": "Three dimensional geometry kernels", "statement": "The normal of a triangle has unit length, is orthogonal to its edges and flips when two vertices are swapped; areas are invariant under vertex permutation and rigid motion; the quadrature Jacobians of an element sum to its area.", "quantifier": "all non-degenerate triangles", "why_tests_cant": "real identities", "anchors": ["traceon/backend/utilities_3d.c:normal_3d", "traceon/backend/utilities_3d.c:triangle_area", "traceon/backend/utilities_3d.c:fill_jacobian_buffer_3d", "traceon/backend/utilities_2d.c:normal_2d"]}
{"id": "C48", "title": "Inward boundary normals", "statement": "After add_electrostatic_boundary (or the magnetostatic one) the normals of the boundary elements point inward in the mesh that is actually solved.", "quantifier": "all excitations, element orders and symmetries", "why_tests_cant": "depends on a later conversion of the mesh that silently reorients it", "anchors": ["traceon/excitation.py:Excitation.add_electrostatic_boundary", "traceon/solver.py:_excitation_to_higher_order", "traceon/mesher.py:Mesh._to_higher_order_mesh"]}
{"id": "C49", "title": "Field bounds", "statement": "A field with bounds reports the restricted value (zero) outside its bounds and the unrestricted value inside, consistently in direct evaluation and in tracing.", "quantifier": "all points, fields and bounds", "why_tests_cant": "all points; two code paths (Python and C) that must agree", "anchors": ["traceon/solver.py:Field.set_bounds", "traceon/backend/radial.c", "traceon/tracing.py"]}
{"id": "C50", "title": "Collections of paths and surfaces", "statement": "The + operator combines paths and collections in any bracketing into one collection holding the paths in order; += extends a collection in place.", "quantifier": "all expressions built from paths, collections and +", "why_tests_cant": "all bracketings and operand types", "anchors": ["traceon/geometry.py:Path.__add__", "traceon/geometry.py:PathCollection.__add__", "traceon/geometry.py:PathCollection.__iadd__", "traceon/geometry.py:SurfaceCollection.__iadd__"]}
{"id": "C51", "title": "Elliptic integrals", "statement": "The argument transformations used for complete elliptic integrals outside the range of the approximation are the exact identities of K and E.", "quantifier": "all arguments", "why_tests_cant": "identity between integrals; special values only are tested", "anchors": ["traceon/backend/elliptic.c:ellipk", "traceon/backend/elliptic.c:ellipe"]}
{"id": "C52", "title": "Named elements of every supported order can be constructed", "statement": "Every element order that the mesh accepts (lines of 2 or 4 points, triangles of 3 or 6 points) can also be given a name: constructing the named mesh with outward normals does not raise.", "quantifier": "all meshes with named elements of a supported width", "why_tests_cant": "The tests only name 2-, 3- and 4-point elements; the failing width is accepted as long as it is not named.", "anchors": ["traceon/mesher.py:Mesh.__init__", "traceon/mesher.py:Mesh._reorient_triangles"]}
{"id": "C53", "title": "Closing a path", "statement": "path.close() extends any path by a straight line to its starting point, so that the result is closed, retraces the original path and then the line; closing a path that is already closed also returns a closed path.", "quantifier": "all paths, open or already closed", "why_tests_cant": "it concerns every path, including those whose end coincides with the start", "anchors": ["traceon/geometry.py: Path.close, Path.line_to, Path.__rshift__, Path.line"]}
{"id": "C54", "title": "Rectangles are traversed counter clockwise", "statement": "Path.rectangle_xz, rectangle_yz and rectangle_xy are traversed counter clockwise around the y, x and z axis respectively, i.e. in the sense in which rotate with a positive angle turns.", "quantifier": "all rectangles with xmin<xmax etc.", "why_tests_cant": "holds for all corner coordinates", "anchors": ["traceon/geometry.py: Path.rectangle_xz, Path.rectangle_yz, Path.rectangle_xy"]}
{"id": "C55", "title": "Extruding or revolving the boundary of a surface", "statement": "extrude_boundary, extrude_boundary_by_path and revolve_boundary_x/y/z return the surface, one side surface for every true boundary edge (the closed edges, or all four when none is closed), each starting exactly on that edge and ending exactly on the corresponding edge of the moved/rotated copy which is appended when enclose is set, so that the collection is enclosed; a full turn adds no copy and every side closes on itself.", "quantifier": "all surfaces, vectors, angles, axes and paths", "why_tests_cant": "quantifies over all surfaces and real parameters; agreement of edges must hold at every parameter value", "anchors": ["traceon/geometry.py: Surface.get_boundary_paths, extrude_boundary, extrude_boundary_by_path, revolve_boundary_x, revolve_boundary_y, revolve_boundary_z"]}
{"id": "C56", "title": "Radial fields are fields of charged rings", "statement": "Up to the polynomial approximation of the elliptic integrals, the potential reported for a radially symmetric problem at any point is the potential of the charges spread over the circles their quadrature points sweep around the axis, the reported field is minus the gradient of that potential (on the axis and at least 1e-10 away from it), and an error eps of the approximation is passed on at most in proportion to eps.", "quantifier": "all charge distributions, all points off the rings", "why_tests_cant": "a test compares a handful of points numerically; the identity between elliptic integrals and the circle integral must hold for every ring and point", "anchors": ["traceon/backend/radial_ring.c potential_radial_ring, dr1_potential_radial_ring, dz1_potential_radial_ring", "traceon/backend/radial.c potential_radial, field_radial", "traceon/backend/elliptic.c"]}
{"id": "C57", "title": "Fields of current loops obey the law of Biot and Savart", "statement": "Up to the polynomial approximation of the elliptic integrals, the magnetic field reported for current coils in a radially symmetric problem is, at every point on the axis or at least 1e-10 away from it, the Biot-Savart integral over the loops at the quadrature points.", "quantifier": "all current distributions with loops of radius at least 1e-10, all points off the loops", "why_tests_cant": "a test compares a few points numerically", "anchors": ["traceon/backend/radial_ring.c current_field_radial_ring", "traceon/backend/radial.c current_field", "traceon/backend/elliptic.c ellipk, ellipe"]}
{"id": "C58", "title": "Meshing a surface ends", "statement": "Meshing any surface whose points move at most proportionally to the parameters, with a mesh size (constant or function of position) that stays above some positive number, ends without an exception, for any breakpoints in either direction.", "quantifier": "all such surfaces, mesh size functions, breakpoints and start depths", "why_tests_cant": "termination of an adaptive loop; a test only shows single runs", "anchors": ["traceon/mesher.py:_subdivide_quads", "traceon/mesher.py:_mesh", "traceon/geometry.py:Surface.mesh"]}
{"id": "C59", "title": "The mesh respects the mesh size", "statement": "Every triangle of a surface mesh lies in a cell of the parameter rectangle whose four sides on the surface are no longer than the requested mesh size at the centre of the cell.", "quantifier": "all surfaces with breakpoints in at most one direction, all mesh size functions, every run that ends", "why_tests_cant": "depends on the history of split decisions", "anchors": ["traceon/mesher.py:_subdivide_quads", "traceon/mesher.py:PointsWithQuads.to_triangles"]}
{"id": "C60", "title": "Triangles of a mesh meet corner to corner", "statement": "In the mesh of a surface no corner of a triangle lies in the interior of an edge of another triangle (there are no hanging points).", "quantifier": "all surfaces and mesh sizes", "why_tests_cant": "only shows for particular patterns of refinement of neighbouring cells", "anchors": ["traceon/mesher.py:PointsWithQuads.to_triangles"]}
{"id": "C61", "title": "Electrodes are at their voltage", "statement": "After solve_direct, the reported potential at the middle of every element with a prescribed voltage (a number or a function of position) or magnetostatic potential is that value, up to the difference between the quadrature sum and the precise integral for the element itself (and, in three dimensions, the elements near it).", "quantifier": "all meshes, excitations and numbers of elements; every linear solver that returns the only solution of its system", "why_tests_cant": "the boundary condition is a property of the assembled matrix, right hand side, solver and field evaluation together, for every geometry", "anchors": ["traceon/solver.py:125 Solver.get_matrix", "traceon/backend/__init__.py fill_matrix_radial, fill_matrix_3d", "traceon/backend/radial.c", "traceon/backend/tracing.c", "traceon/field.py electrostatic_potential_at_point"]}
{"id": "C62", "title": "Normal field is refracted at dielectrics and magnetizable material", "statement": "After solve_direct, at the middle of every element of a dielectric or magnetizable boundary with constant K the normal component of the total field (including the field of the currents) on the outside is K times the one on the inside, up to the difference between the quadrature sum and the precise integral for the element itself (and near elements).", "quantifier": "all meshes, excitations with K other than -1, radial and three-dimensional problems", "why_tests_cant": "an algebraic consequence of the whole chain from excitation to evaluated field; tests compare a few analytic geometries", "anchors": ["traceon/solver.py:50 Solver, flux_density_to_charge_factor", "traceon/solver.py:262 MagnetostaticSolver", "traceon/backend/__init__.py fill_matrix_radial, fill_matrix_3d"]}
{"id": "C63", "title": "A coil carries the current it was given", "statement": "After solve_direct the current of each excited group is distributed uniformly over the triangles of that group, and density times cross-section area is the current that was given; groups without a current carry none.", "quantifier": "all radial meshes with any number of coils and triangles, any currents", "why_tests_cant": "a conservation statement for every mesh of every coil", "anchors": ["traceon/solver.py:262 MagnetostaticSolver.get_current_charges", "traceon/backend/tracing.c fill_jacobian_buffer_3d", "traceon/excitation.py Excitation.add_current"]}
{"id": "C64", "title": "Area and charge of elements", "statement": "area_of_element is the area of the triangle (3D) or of the surface of revolution of the line (radial); charge_on_element is that area times the charge density; the plural forms add up; indices out of range raise IndexError.", "quantifier": "all solved problems, all elements and index lists", "why_tests_cant": "a geometric identity for every element shape and size", "anchors": ["traceon/solver.py:611 FieldBEM.area_of_elements, charge_on_element, charge_on_elements", "traceon/solver.py:771 FieldRadialBEM.area_of_element", "traceon/solver.py:937 Field3D_BEM.area_of_element"]}
{"id": "C65", "title": "field_at_point and potential_at_point choose the only field there is", "statement": "If a field has only electric charges, field_at_point and potential_at_point give the electric field and potential; if it has only magnetic charges or currents, the magnetic ones; otherwise (both or neither) they raise RuntimeError.", "quantifier": "all fields and points", "why_tests_cant": "a case distinction over every combination of charges, including fields with currents only", "anchors": ["traceon/solver.py:468 Field.field_at_point, potential_at_point", "traceon/solver.py:569 FieldBEM.is_electrostatic, is_magnetostatic"]}
{"id": "C66", "title": "Potential of a uniformly charged triangle", "statement": "In a three-dimensional problem the influence of a triangle on a point close to it is the integral of 1/distance over the surface of the triangle, whatever the shape and position of the triangle and the point, including points in the plane of the triangle.", "quantifier": "all non-degenerate triangles, all target points outside the triangle", "why_tests_cant": "an identity between a surface integral and a closed form inside a one-dimensional integral, for every triangle and point; a test evaluates a few of them", "anchors": ["traceon/backend/triangle.c potential_triangle, potential_integrand", "traceon/backend/tracing.c fill_matrix_3d"]}
{"id": "C67", "title": "Flux of a uniformly charged triangle", "statement": "In a three-dimensional problem with dielectrics or magnetizable material the influence of a nearby triangle on a row of the matrix is the surface integral of the normal component of the field of a point charge, in whatever unit of length the geometry is given.", "quantifier": "all non-degenerate triangles, targets off the triangle, normals and length scales", "why_tests_cant": "scale invariance and an integral identity over all triangles and points", "anchors": ["traceon/backend/triangle.c flux_triangle, flux_integrand", "traceon/backend/tracing.c fill_matrix_3d"]}
{"id": "C68", "title": "Which triangles count as neighbours with the same orientation", "statement": "When normals are made consistent, two triangles are compared along a common edge: they count as equally oriented exactly when they traverse it in opposite directions, as differently oriented when they traverse it in the same direction, and as unrelated when they have no edge in common (provided different edges at a common vertex do not point in nearly the same direction). Hence connected orientable surfaces come out consistently oriented, and closed surfaces outward.", "quantifier": "all pairs of triangles with non-zero area, in any vertex order, any position and scale", "why_tests_cant": "the comparison is geometric (cross products and a threshold on the angle) and has to agree with the combinatorial notion for every pair", "anchors": ["traceon/backend/triangle.c:185 triangle_orientation_is_equal", "traceon/mesher.py:705 _reorient_triangles", "traceon/mesher.py:740 _ensure_triangle_orientation"]}
{"id": "C69", "title": "Three-dimensional series around the axis", "statement": "Evaluating the interpolated series around the axis gives a field that is minus the gradient of the potential it gives, at every point strictly between two samples that lies on the axis or at least 1e-10 from it (x and y components also at the samples); on the axis the potential is the interpolated coefficient of order (0,0) and the field consists of minus its derivative and minus the coefficients of order (0,1); turning the point about the axis is the same as turning the coefficients; outside the range both are zero.", "quantifier": "all points, all equally spaced samples, all coefficient tables", "why_tests_cant": "identity between two separately written sums, for all real inputs", "anchors": ["traceon/backend/three_d.c:potential_3d_derivs", "traceon/backend/three_d.c:field_3d_derivs", "traceon/backend/__init__.py:potential_3d_derivs"]}
{"id": "C70", "title": "Expansion coefficients of three-dimensional charges", "statement": "For charges off the axis, the tabulated coefficients of order (nu, m), nu < 4, m < 8, at height z are the coefficients of cos(m phi) and sin(m phi) in the (2 nu + m)-th Taylor coefficient, along the ray at angle phi from the axis, of the potential that potential_3d computes, to a relative error of 1e-15.", "quantifier": "all charge distributions off the axis, all z, all angles, all 32 orders", "why_tests_cant": "a table of 32 rational functions must agree with derivatives of up to order 13 for all positions", "anchors": ["traceon/backend/three_d.c:axial_coefficients_3d", "traceon/backend/__init__.py:axial_coefficients_3d"]}
{"id": "C71", "title": "Transforming a mesh", "statement": "map_points (and so move, rotate and the mirrors) on a mesh returns a mesh whose lines and triangles are the images of the original ones, in the same order (triangles whose image has an area below 1e-12 are dropped), and whose named groups contain the images of the elements they contained; the original mesh is not changed.", "quantifier": "every mesh, every map of points to points", "why_tests_cant": "Every mesh, map and grouping; degenerate images and coinciding image points renumber the arrays.", "anchors": ["traceon/mesher.py: Mesh.map_points", "traceon/mesher.py: GeometricObject.move, rotate, mirror_xz, mirror_yz, mirror_xy"]}
{"id": "C72", "title": "Meshing a collection", "statement": "Meshing a collection of paths or surfaces gives the elements of all members, one member after the other, and nothing else; each element is in the group named by the name argument, else by the name of the collection, else by the name of its member. Setting the name of a collection names all its members.", "quantifier": "every collection (any number of members), every discretisation of the members, all names", "why_tests_cant": "Any number of members, coinciding points between members, repeated and missing names.", "anchors": ["traceon/geometry.py: PathCollection.mesh, SurfaceCollection.mesh, PathCollection.name, SurfaceCollection.name", "traceon/geometry.py: Path.mesh, Surface.mesh", "traceon/mesher.py: _mesh, Mesh.__add__"]}
{"id": "C73", "title": "Meshing without correcting the normals", "statement": "With ensure_outward_normals=False the elements of a mesh keep the direction in which the path or surface is parametrised, for single paths and surfaces and for collections.", "quantifier": "every path, surface and collection", "why_tests_cant": "Depends on the geometry of all members and the outwardness tests.", "anchors": ["traceon/geometry.py: Path.mesh, Surface.mesh, PathCollection.mesh, SurfaceCollection.mesh", "traceon/mesher.py: Mesh.__add__"]}
{"id": "C74", "title": "Removing the lines or the triangles of a mesh", "statement": "remove_lines and remove_triangles return a mesh with the same points, the same remaining elements and the same named groups of them, and none of the removed kind.", "quantifier": "every constructed mesh", "why_tests_cant": "Every mesh and every grouping.", "anchors": ["traceon/mesher.py: Mesh.remove_lines, Mesh.remove_triangles"]}
{"id": "C75", "title": "Self potential of a charged triangle is exact at every interior point", "statement": "For every non-degenerate triangle and every point strictly inside it, self_potential_triangle(v0,v1,v2,point) equals the potential (times 4 pi eps0) of the uniformly charged triangle at that point: the limit of the surface integral of 1/distance as the point is approached from either side of the triangle. self_potential_triangle_v0 is the potential of the triangle at its first vertex.", "quantifier": "every non-degenerate triangle in space and every strictly interior point (real numbers)", "why_tests_cant": "The integral is improper and its closed form is a combination of inverse hyperbolic sines; agreement on sampled triangles cannot show the identity for all of them.", "anchors": ["traceon/backend/triangle.c: self_potential_triangle, self_potential_triangle_v0", "traceon/backend/__init__.py: self_potential_triangle"]}
{"id": "C76", "title": "Mesh size and mesh size factor", "statement": "Surface.mesh uses an explicit mesh_size whatever the factor; otherwise the size is a quarter of the smaller of the two path lengths divided by the square root of mesh_size_factor. Every triangle lies in a cell of the surface whose four chords are at most that size, a larger factor never gives a larger size, and enlarging a surface k times while keeping the factor gives the same triangles on points enlarged k times.", "quantifier": "every surface with breakpoints in order, every mesh size or positive factor, every enlargement", "why_tests_cant": "a statement about all surfaces and all factors; a test can only compare a few meshes", "anchors": ["traceon/geometry.py: Surface.mesh", "traceon/mesher.py: _mesh, _subdivide_quads"]}
{"id": "C77", "title": "Meshing commutes with moving", "statement": "The mesh of a moved, rotated or mirrored surface has the same triangles as the mesh of the surface, on moved points, for every mesh size; the mesh of a moved path is the mesh of the path with moved points.", "quantifier": "every surface and path, every rigid motion, every mesh size (constant, factor or moving along with the surface)", "why_tests_cant": "a statement about all surfaces and all motions, including surfaces that are divided to any depth", "anchors": ["traceon/geometry.py: Surface.mesh, Surface.map_points, Path.mesh, Path.map_points", "traceon/mesher.py: _mesh, GeometricObject.move, rotate, mirror_xz"]}
{"id": "C78", "title": "Accuracy of axial fields on the axis", "statement": "FieldRadialAxial(field, zmin, zmax, N) reproduces, on the optical axis, the potential and the field of the radial field: exactly at every sample but the last, and between samples with an error of sixth order in the distance h of the samples: at most (h/2D)^6 times S/2D (potential) and 7S/2D^2 (field), where D is the distance of all rings and current loops from this part of the axis and S the sum of |charge * Jacobian * radius|. Electric and magnetic (magnetisation and currents).", "quantifier": "every radial field with sources off the axis, every range, every number of samples >= 2, every z in [zmin, zmax), whatever the cubic spline routine returns for the two highest derivatives", "why_tests_cant": "an error bound over all fields, all sample distances and a continuum of points; tests compare a few points of a few fields to a tolerance", "anchors": ["traceon/interpolation.py: FieldRadialAxial.__init__, _get_interpolation_coefficients, _quintic_spline_coefficients", "traceon/backend/radial.c: axial_derivatives_radial, potential_radial_derivs, field_radial_derivs"]}
{"id": "C79", "title": "Default number of samples", "statement": "FieldRadialAxial(field, zmin, zmax) without a number of samples builds an axial field for every radial field.", "quantifier": "every radial field and every range zmin < zmax", "why_tests_cant": "for all fields, in particular those made by few elements or by currents only", "anchors": ["traceon/interpolation.py: FieldRadialAxial._get_interpolation_coefficients, FACTOR_AXIAL_DERIV_SAMPLING_2D"]}
{"id": "C80", "title": "Accuracy of the radial series", "statement": "Given the exact derivatives of the axial potential, the radial series used for axial fields differs from the potential of the charged rings at a point at distance rho from the axis at most by (rho/D)^10 (D+rho)/(D-rho)^2 times half the radius, per ring and unit charge, where D is the distance of the ring from the foot of the point on the axis and rho < D.", "quantifier": "every distribution of charged rings, every point closer to its foot on the axis than all rings", "why_tests_cant": "a truncation error of an infinite series, for a continuum of configurations", "anchors": ["traceon/backend/radial.c: potential_radial_derivs, potential_radial", "traceon/backend/radial_ring.c: potential_radial_ring, axial_derivatives_radial_ring"]}
{"id": "C81", "title": "Accuracy of axial fields off the axis", "statement": "The electrostatic potential of FieldRadialAxial at a point at distance rho from the axis differs from the potential of the charged rings of the radial field by at most the sum of the interpolation error S/2D (h/2D)^6 (1 + 14 t^2 + 315/4 t^4 + 1155/4 t^6), t = rho/D, the truncation error S/2 t^10 (D+rho)/(D-rho)^2 and rho^8/147456 times the error of the spline of the eighth derivative.", "quantifier": "every radial field, range, number of samples >= 2, every point with zmin <= z < zmax and rho < D", "why_tests_cant": "an end-to-end error bound over all fields and a continuum of points", "anchors": ["traceon/interpolation.py: FieldRadialAxial", "traceon/backend/radial.c: potential_radial_derivs"]}
{"id": "C82", "title": "Accuracy of the radial series of the field", "statement": "Given the exact derivatives of the axial potential, every component of the field given by the radial series differs from the field of the charged rings (Coulomb) and current loops (Biot-Savart) at a point at distance rho from the axis at most by (rho/D)^8 (D+rho)^3/(D^2 (D-rho)^3) times 45/2 (rings) or 81/2 (loops) times the radius, per unit charge or current, where D is the distance of the ring from the foot of the point on the axis and rho < D.", "quantifier": "every distribution of charged rings and current loops, every point closer to its foot on the axis than all of them", "why_tests_cant": "a truncation error of an infinite series, for a continuum of configurations", "anchors": ["traceon/backend/radial.c: field_radial_derivs, field_radial, current_field", "traceon/backend/radial_ring.c: dr1_potential_radial_ring, dz1_potential_radial_ring"]}
{"id": "C83", "title": "Accuracy of the field of axial fields off the axis", "statement": "The electrostatic (or magnetostatic) field of FieldRadialAxial at a point at distance rho from the axis differs from the field of the charged rings (magnetisation rings and current loops) of the radial field, in every component, by at most the sum of an interpolation error of sixth order in the sample distance, S/2D^2 (h/2D)^6 times a polynomial in rho/D, a truncation error of eighth order in rho/D, and the errors of the cubic splines of the seventh and eighth derivative times rho^6/2304 and rho^7/18432.", "quantifier": "every radial field, electric or magnetic, range, number of samples >= 2, every point with zmin <= z < zmax and rho < D", "why_tests_cant": "an end-to-end error bound over all fields and a continuum of points", "anchors": ["traceon/interpolation.py: FieldRadialAxial", "traceon/backend/radial.c: field_radial_derivs"]}
{"id": "C84", "title": "Order of a tracing step", "statement": "Where the force is smooth (in particular in the field of a three-dimensional geometry, away from its charges, and of a radially symmetric one, away from its rings and its axis) one step of the tracer over the time h, started on a true trajectory of the electron, ends within C h^6 of the true trajectory, and the error estimate that decides on the step is at most C h^5, with one constant C for the whole trajectory.", "quantifier": "every force and true trajectory along which the force is four times differentiable with bounded remainder; every three-dimensional BEM field and every trajectory that meets no charge; every radially symmetric BEM field (electrodes, magnets, coils, with or without bounds) and every trajectory off the axis and the rings and within the bounds; all starting times and all small enough steps", "why_tests_cant": "an asymptotic order, over a continuum of fields, trajectories and steps", "anchors": ["traceon/backend/tracing.c: trace_particle, produce_new_k, A, B6, CH, CT", "traceon/tracing.py: Tracer.__call__"]}
{"id": "C85", "title": "Convergence of traced trajectories", "statement": "Every state a trace returns for a time up to T deviates from the state of the true trajectory at that time by at most C H^5, where H is the largest time step of the trace up to there and C depends on the field, the trajectory and T only.", "quantifier": "every three-dimensional BEM field (electric and magnetic) and trajectory that meets no charge, every radially symmetric BEM field and trajectory off its axis and its rings and within its bounds, and every other smooth force; every call of the tracer that returns, tolerance, bounds, sample and H below a positive threshold", "why_tests_cant": "convergence of a numerical method is a statement about limits of all step sequences", "anchors": ["traceon/backend/tracing.c: trace_particle", "traceon/tracing.py: Tracer.__call__", "traceon/backend/__init__.py: trace_particle_wrapper"]}
{"id": "C86", "title": "Tracing returns", "statement": "A call of the tracer returns whenever the force near the tracer bounds is small against the kinetic energy of the electron: if the squared speed along some direction is at least (8 L + 2) e/m times the largest force (for speeds up to twice the initial one, up to a margin around the bounds), L being the extent of the bounds ahead of the electron, then for every tolerance finitely many steps, accepted or rejected, take the electron out of the bounds, before the time (4 L + 0.02)/speed, and it never loses more than half of its speed along that direction.", "quantifier": "every force field with a bound near the tracer bounds, in particular three-dimensional BEM fields (electric and magnetic) at a distance from the charges, radially symmetric BEM fields (electrodes, magnets and coils) at a distance from the rings, and axial fields; every initial position, velocity, direction, bounds and positive tolerance", "why_tests_cant": "termination of an adaptive loop for all fields and tolerances", "anchors": ["traceon/backend/tracing.c: trace_particle, field_3d_traceable, field_radial_derivs_traceable", "traceon/backend/__init__.py: trace_particle_wrapper", "traceon/tracing.py: Tracer.__call__"]}
{"id": "C87", "title": "Accuracy of the elliptic integrals", "statement": "The polynomial approximations of the complete elliptic integrals differ from the integrals by at most 3e-13 for every argument in (0, 1]; the reported potential and field of rotationally symmetric electrodes and the reported magnetic field of rotationally symmetric currents therefore differ from those of the charged rings and current loops (Coulomb, Biot-Savart, integrated over the circles) by at most 3e-13 times a sum over the rings with explicit geometric weights.", "quantifier": "every argument in (0, 1]; every collection of charges and every point off the rings, on the axis or at least 1e-10 away from it", "why_tests_cant": "the difference of two transcendental functions on an interval; a test samples it", "anchors": ["traceon/backend/elliptic.c: ellipkm1, ellipem1, ellipk, ellipe", "traceon/backend/radial_ring.c: potential_radial_ring, dr1_potential_radial_ring, dz1_potential_radial_ring, current_field_radial_ring", "traceon/backend/radial.c: potential_radial, field_radial, current_field"]}
{"id": "C88", "title": "Calls of the compiled backend stay inside the arrays", "statement": "A call of a backend function with any numpy arrays (any dtype, shape, strides) returns, raises an exception or exits; it never reads or writes outside the memory of the arrays it is given, nor reads items with another type.", "quantifier": "every memory layout, every number of items, every dtype, shape and strides numpy allows", "why_tests_cant": "an out-of-bounds access depends on the layout of the arguments and usually goes unnoticed in a test", "anchors": ["traceon/backend/__init__.py: ensure_contiguous_aligned, arr, potential_radial, field_radial, potential_3d, field_3d, current_field, axial_derivatives_radial, axial_coefficients_3d, fill_jacobian_buffer_radial, fill_matrix_radial, charge_radial, position_and_jacobian_radial, plane_intersection, potential_radial_derivs", "traceon/backend/*.c"]}
{"id": "C89", "title": "The result of a backend call depends only on the items of its arguments", "statement": "A call of a backend function computes the formula (potential, field, axial derivatives, quadrature buffers, matrix, areas, normals) of the items of the arrays it is given, independent of their strides and place in memory, and leaves all existing arrays unchanged, except the matrix, in which it fills the rows asked for.", "quantifier": "every memory layout of the arguments, every number of elements", "why_tests_cant": "layouts are unbounded in number; tests pass freshly made contiguous arrays", "anchors": ["traceon/backend/__init__.py: ensure_contiguous_aligned, backend_functions, potential_radial, field_radial, potential_3d, field_3d, current_field, current_potential_axial, axial_derivatives_radial, fill_matrix_radial, fill_matrix_3d, field_3d_derivs", "traceon/solver.py: Solver.get_matrix", "traceon/backend/*.c"]}
{"id": "C90", "title": "Accuracy of the three-dimensional series around the axis", "statement": "At a point at the distance r from the z axis, the potential and the field returned by potential_3d_derivs and field_3d_derivs for a table that reproduces the coefficients of axial_coefficients_3d (at the samples of a spline: exactly) differ from the potential and the field of the effective point charges at most by the sum over the charges of explicit bounds of order (r/D)^8 for the potential and the axial component of the field and (r/D)^7 for the transverse components, where D > r is the distance of the charge from the foot of the point on the axis, plus the rounding of the tabulated factorials and the error of the interpolated coefficients.", "quantifier": "every distribution of charges off the axis, every table, every point nearer to the axis than all charges are to its foot, on the axis or at least 1e-10 from it", "why_tests_cant": "a truncation error of an infinite double series, for a continuum of configurations and points", "anchors": ["traceon/backend/three_d.c: axial_coefficients_3d, potential_3d_derivs, field_3d_derivs, potential_3d, field_3d"]}
{"id": "C91", "title": "Arrays returned by a tracer", "statement": "A call tracer(position, velocity) returns two new float64 arrays, times (N,) and positions (N, 6), holding exactly the trajectory the integration algorithm computes, each sample once and in order, however many blocks of 100000 samples the trace takes and whatever the dtype, strides and alignment of the arguments; if the algorithm fails the call raises that error; the call never accesses memory outside of the arrays and never changes an existing array.", "quantifier": "every memory, all effective charges, bounds, positions, velocities and tolerances, and every number of steps and blocks; for the tracers of axial fields, every trace that does not meet the last sample of the table", "why_tests_cant": "the blocks join only after 100000 samples, and pointers, strides and block boundaries range over all memory layouts", "anchors": ["traceon/backend/tracing.c: trace_particle, field_radial_traceable, field_3d_traceable, field_radial_derivs_traceable, field_3d_derivs_traceable", "traceon/backend/__init__.py: trace_particle_wrapper, trace_particle_radial, trace_particle_3d, trace_particle_radial_derivs, trace_particle_3d_derivs, EffectivePointCharges2D, EffectivePointCharges3D", "traceon/tracing.py: Tracer, TracerRadialBEM, Tracer3D_BEM, TracerRadialAxial", "traceon/solver.py: EffectivePointCharges"]}
{"id": "C92", "title": "Bounds of a field take effect however they are stored", "statement": "After field.set_bounds(bounds) a trace in the field is the same for every array of bounds with the same numbers, whatever its dtype and memory layout.", "quantifier": "every array of bounds, every field, every trace", "why_tests_cant": "all memory layouts and dtypes, and all trajectories", "anchors": ["traceon/solver.py: FieldBEM.set_bounds", "traceon/backend/__init__.py: trace_particle_radial", "traceon/backend/tracing.c: field_radial_traceable"]}
{"id": "C93", "title": "Moving a configuration moves its solution", "statement": "If a mesh with its excitation is moved and rotated, the solution of the moved problem is the moved solution: the same charge on every element, the same potential at the moved points, the field turned along; an electron started at the moved point in a displaced field follows the displaced trajectory with the same times and velocities and crosses the displaced plane in the same state. If one of the two problems raises an exception, so does the other.", "quantifier": "every three-dimensional mesh and excitation and every rigid motion (without dielectrics and magnetizable material also every mirroring); every radial problem and displacement along the axis; every point, trace, tolerance and set of bounds", "why_tests_cant": "invariance under a continuous group, over all meshes and excitations", "anchors": ["traceon/solver.py: solve_direct, Solver, FieldBEM", "traceon/backend/tracing.c: fill_matrix_3d, trace_particle, plane_intersection", "traceon/backend/radial.c: fill_matrix_radial", "traceon/backend/triangle.c: potential_triangle, flux_triangle"]}
{"id": "C94", "title": "Energy conservation", "statement": "An electron in a three-dimensional field, magnetic or not, keeps its kinetic plus potential energy along its exact trajectory, so it arrives at any point with the energy it started with plus what the potential difference gives it; a purely magnetic field (coils and rotationally symmetric magnets included) leaves the speed unchanged; the computed trajectory of a tracer conserves the energy up to a constant times the fifth power of its largest step, and so it does the speed in a purely magnetic field, rotationally symmetric ones included.", "quantifier": "every three-dimensional field solution, every exact trajectory that keeps off the charges, every start, energy, tolerance and set of bounds, every sample of the trace", "why_tests_cant": "an invariant of all trajectories in all fields; the error bound is over all step sizes", "anchors": ["traceon/backend/tracing.c: field_3d_traceable, field_radial_traceable, combine_elec_magnetic_field, trace_particle", "traceon/solver.py: FieldBEM.electrostatic_potential_at_point", "traceon/tracing.py: Tracer.__call__, velocity_vec"]}
{"id": "C95", "title": "Scaling laws of electron optics", "statement": "Multiplying all voltages of an excitation by one number and all its currents and magnetostatic potentials by another multiplies the electric and the magnetic potential and field of the solution by them, everywhere. In an electric field c squared times as strong and a magnetic field c times as strong an electron with c squared times the energy follows exactly the same computed trajectory: the same points, c times the velocities, 1/c times the times, the same exceptions; it crosses planes at the same points, and beams have the same focus.", "quantifier": "every excitation, every pair of factors, every c > 0, every trace, tolerance, set of bounds, plane and beam", "why_tests_cant": "an equivalence between pairs of runs for a continuum of factors, over all excitations and traces", "anchors": ["traceon/solver.py: solve_direct, Solver.get_right_hand_side", "traceon/tracing.py: Tracer.__call__, velocity_vec", "traceon/backend/tracing.c: trace_particle, produce_new_k, plane_intersection", "traceon/focus.py: focus_position"]}
{"id": "C96", "title": "Rotational symmetry of trajectories", "statement": "In the field of a radial geometry an exact trajectory, rotated about the axis by any angle, is an exact trajectory. Without a magnetic field an electron keeps its angular momentum about the axis (its computed trajectory keeps it up to an error of fifth order in the step), and one that starts in a plane through the axis never leaves it, nor does its computed trajectory, not by the smallest amount. Quarter turns about the axis carry computed trajectories to computed trajectories step by step (mirrorings too, without a magnetic field). The same holds for tracers of axial fields.", "quantifier": "every radial field solution and axial field, every trajectory, start, energy, plane through the axis, tolerance and set of bounds, every sample", "why_tests_cant": "invariants of all trajectories, over all fields and all angles", "anchors": ["traceon/backend/radial.c: field_radial, current_field, field_radial_derivs", "traceon/backend/tracing.c: field_radial_traceable, field_radial_derivs_traceable, trace_particle", "traceon/tracing.py: Tracer.__call__"]}
{"id": "C97", "title": "Traces in turned and mirrored configurations", "statement": "If a three-dimensional geometry and its excitation are turned by quarter turns about coordinate axes and displaced, the electron started at the moved point in the turned direction follows the moved trajectory step by step, with the same times, the turned velocities and the same exceptions; if they are mirrored, so too, in the absence of dielectrics and magnetism. Moved trajectories cross moved planes in moved states.", "quantifier": "all 48 symmetries of the coordinate axes with every displacement; every mesh and excitation, every pair of fields that correspond, every trace, tolerance, set of bounds and plane", "why_tests_cant": "an equivalence between pairs of runs, over all meshes, excitations and traces", "anchors": ["traceon/backend/tracing.c: trace_particle, field_3d_traceable, plane_intersection", "traceon/solver.py: solve_direct, Field3D_BEM", "traceon/tracing.py: Tracer.__call__, plane_intersection"]}
{"id": "C98", "title": "Independence of numbering and of the order of assignments", "statement": "Two problems whose elements have the same corners and belong to the same groups, and whose groups are assigned the same conditions, are solvable together and have the same solution, whatever the order in which the points are stored, however often a point is stored, and whatever the order in which the conditions were assigned: the same potentials and fields everywhere, the same charges on the elements, the same trajectories.", "quantifier": "every mesh and excitation, in two and three dimensions, electric and magnetic, with coils; every renumbering of the points, every duplication of points and every order of the assignments; every point, element and trace", "why_tests_cant": "an equivalence between the outcomes of two runs, over all meshes and all permutations", "anchors": ["traceon/excitation.py: Excitation.get_electrostatic_active_elements, get_magnetostatic_active_elements", "traceon/solver.py: Solver, solve_direct, MagnetostaticSolver.get_current_charges, Field3D_BEM, FieldRadialBEM", "traceon/mesher.py: Mesh"]}
{"id": "C99", "title": "Time reversal", "statement": "Every exact trajectory of an electron, run backwards, is an exact trajectory in the same electric and the opposite magnetic field; without a magnetic field an electron sent back with the opposite velocity retraces its path to the start. The computed trajectory of an electron sent back follows the exact one backwards, and returns to its start, up to an error of fifth order in the step.", "quantifier": "every field solution, three-dimensional and radial, and every axial field; every trajectory, duration, tolerance, set of bounds and sample", "why_tests_cant": "a relation between pairs of trajectories, over all fields and all step sequences", "anchors": ["traceon/backend/tracing.c: trace_particle, field_radial_traceable, field_3d_traceable, field_radial_derivs_traceable", "traceon/backend/utilities_3d.c: combine_elec_magnetic_field", "traceon/tracing.py: Tracer.__call__"]}
