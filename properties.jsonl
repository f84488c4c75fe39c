{"id": "C01", "title": "Chunked multi-threaded queries touch every query exactly once", "statement": "evaluate / derivative / jacobian / basis / proximities / sample called with any number of queries and any nthreads value processes every query index exactly once and never an index outside [0, n_queries).", "quantifier": "every number of queries (including 0) and every integer nthreads (negative, zero, larger than the query count)", "why_tests_cant": "The chunk arithmetic depends on the pair (n, nthreads); a test samples a handful of pairs and an out-of-range write is not observable in general.", "anchors": ["include/splinepy/utils/nthreads.hpp: NThreadExecution", "src/py/py_spline.cpp: PySpline::Evaluate, Derivative, Jacobian, Sample, Proximities"]}
{"id": "C02", "title": "Strided multi-threaded multipatch loops touch every item exactly once", "statement": "Multipatch evaluate / sample / sub-patch centers / boundary extraction / mismatch checking process every (patch, query) item exactly once, for the nthreads value handed in by the user.", "quantifier": "every number of items and every integer nthreads", "why_tests_cant": "Coverage and disjointness must hold for every (total, nthreads) pair; zero or negative values make loops diverge, which a finite test does not settle.", "anchors": ["src/py/py_multipatch.cpp: RaiseMismatch, PyMultipatch::Evaluate, PyMultipatch::Sample, PyMultipatch::SubPatchCenters, PyMultipatch::BoundaryMultipatch", "include/splinepy/utils/nthreads.hpp: NThreadExecution"]}
{"id": "C03", "title": "Results do not depend on the number of threads or on the schedule", "statement": "The array returned by a multi-threaded query is the array the single-threaded call returns: entry i is the value for query i, whatever the interleaving of the worker threads' writes.", "quantifier": "every interleaving of the writes of every worker, every thread count for which the partition is exact, every query list", "why_tests_cant": "Schedules are not controllable from tests; only a proof over all interleavings settles it.", "anchors": ["include/splinepy/utils/nthreads.hpp: NThreadExecution", "src/py/py_spline.cpp: PySpline::Evaluate", "src/py/py_multipatch.cpp: PyMultipatch::Evaluate"]}
{"id": "C04", "title": "Extracting all boundary splines covers every patch", "statement": "extract_all_boundary_splines(splines, interfaces, n_threads) returns one spline for every boundary face (negative interface entry) of every patch, whatever n_threads is.", "quantifier": "every number of patches, every interface table, every n_threads", "why_tests_cant": "A test with as many threads as patches passes; the claim is about all combinations.", "anchors": ["src/py/py_multipatch.cpp: ExtractAllBoundarySplines"]}
{"id": "C05", "title": "Sampling grids enumerate the full tensor grid, first axis fastest", "statement": "The i-th sample returned by sample(resolutions) is the point whose coordinate along axis k is the linspace entry number (i / (r_0*...*r_{k-1})) mod r_k; this order is the one of cartesian_product(..., reverse=True) and of the multi index of a control mesh with the same resolutions. The number of samples is the product of the resolutions.", "quantifier": "every parametric dimension, every list of resolutions >= 2, every sample index", "why_tests_cant": "Two independent enumeration algorithms (repeat/tile loops and div/mod) must agree for every dimension and resolution.", "anchors": ["include/splinepy/utils/grid_points.hpp: GridPoints::SetUp, Fill, IdToGridPoint, Size", "splinepy/utils/data.py: cartesian_product"]}
{"id": "C06", "title": "Sample points stay inside the parametric bounds and hit both ends", "statement": "For every axis the sampled coordinates form a non-decreasing sequence that starts at the lower bound, ends at the upper bound and never leaves [lower, upper].", "quantifier": "every pair of bounds with lower <= upper, every resolution >= 2, every index", "why_tests_cant": "Universal over real-valued bounds and resolutions.", "anchors": ["include/splinepy/utils/grid_points.hpp: GridPoints::SetUp"]}
{"id": "C07", "title": "Hyper-plane control point ids are exactly the ids on that plane", "statement": "The ids returned for (axis, plane) are exactly those control point ids whose multi-index has entry `plane` along `axis`, in increasing order, each once.", "quantifier": "every parametric dimension, control mesh resolution, axis and plane id", "why_tests_cant": "The id arithmetic mixes strides and products; only the inductive argument covers all dimensions.", "anchors": ["include/splinepy/utils/grid_points.hpp: GridPoints::IdsOnHyperPlane", "include/splinepy/splines/helpers/extract.hpp: ExtractBoundaryMeshSlice"]}
{"id": "C08", "title": "Extracted boundary splines trace the boundary", "statement": "extract.boundaries()[2k] (resp. 2k+1) is a spline with one parametric dimension less whose value at a parameter v is the value of the original at v with the lower (resp. upper) bound of axis k inserted, for splines with clamped knot vectors and for Bezier types.", "quantifier": "every parametric dimension, degree, clamped knot vector, control mesh, boundary id, parameter", "why_tests_cant": "Universal over all splines and parameters; needs the end-point interpolation property of the basis.", "anchors": ["src/py/py_spline_extensions.cpp: ExtractBoundaries", "include/splinepy/splines/helpers/extract.hpp: ExtractBoundaryMeshSlice, ExtractControlMeshSliceFromIDs"]}
{"id": "C09", "title": "Multi-index lookup is a bijection with first-axis-fastest order", "statement": "multi_index[i_0, ..., i_n] equals i_0 + i_1*r_0 + i_2*r_0*r_1 + ...; distinct in-range multi indices give distinct ids covering 0..prod(r)-1; negative entries count from the end and out-of-range entries raise.", "quantifier": "every resolution list and every multi index", "why_tests_cant": "Bijectivity in all dimensions.", "anchors": ["splinepy/helpme/multi_index.py: MultiIndex"]}
{"id": "C10", "title": "Permuting parametric axes only relabels parameters", "statement": "permute_parametric_axes(spline, p) yields a spline whose value at (u_{p[0]}, ..., u_{p[n]}) is the value of the original at u; applying the inverse permutation restores degrees, knot vectors, control points and weights; invalid permutations raise.", "quantifier": "every parametric dimension, every permutation, every spline and parameter", "why_tests_cant": "All permutations in all dimensions.", "anchors": ["splinepy/helpme/reparametrize.py: permute_parametric_axes"]}
{"id": "C11", "title": "Flipping axes reverses the parametrization and is an involution", "statement": "flip_axes(spline, axes) yields a spline whose value at u equals the original's value with u_a replaced by lower_a + upper_a - u_a for every flipped axis a; doing it twice restores the spline.", "quantifier": "every parametric dimension, every list of axes, every spline and parameter", "why_tests_cant": "Universal over axes lists (including repeated axes), dimensions and splines.", "anchors": ["splinepy/helpme/reparametrize.py: flip_axes"]}
{"id": "C12", "title": "Knot insertion matrices preserve the geometry", "statement": "If new_cps = knot_insertion_matrix(k, knots) @ cps then the spline with the refined knot vector and new_cps has the same values everywhere as the original; every row of the matrix is a convex combination (non-negative, sums to one).", "quantifier": "every degree >= 1, every non-decreasing knot vector, every sorted list of new knots strictly inside the bounds, every control polygon, every parameter", "why_tests_cant": "Real-valued universally quantified identity.", "anchors": ["src/py/py_knot_insertion_matrix.cpp: ComputeKnotInsertionMatrixAndKnotSpan, ComputeGlobalKnotInsertionMatrix", "splinepy/bspline.py: knot_insertion_matrix"]}
{"id": "C13", "title": "Knot insertion matrix is computed without touching the caller's data", "statement": "knot_insertion_matrix(k, knots) leaves the array of new knots passed by the caller unchanged and reads only inside it.", "quantifier": "every array of new knots", "why_tests_cant": "Aliasing and out-of-bounds reads are invisible to value tests on sorted inputs.", "anchors": ["src/py/py_knot_insertion_matrix.cpp: ComputeKnotInsertionMatrixAndKnotSpan", "splinepy/bspline.py: knot_insertion_matrix"]}
{"id": "C14", "title": "uniform_refine inserts n equidistant knots strictly inside every knot span", "statement": "For every requested axis, uniform_refine(axis, n) inserts in every non-empty span exactly n knots that split it into n+1 equal pieces, and no other knot.", "quantifier": "every sorted list of unique knots, every n >= 1, every axis list", "why_tests_cant": "Universal over knots and counts.", "anchors": ["splinepy/bspline.py: uniform_refine"]}
{"id": "C15", "title": "normalize_knot_vectors is an order preserving affine map onto [0, 1]", "statement": "After normalize_knot_vectors every knot vector starts at 0 and ends at 1, ratios of knot differences (hence multiplicities) are unchanged and the geometry at corresponding parameters is unchanged.", "quantifier": "every non-decreasing knot vector with first < last, every control polygon and parameter", "why_tests_cant": "Affine invariance of the basis must hold for all parameters.", "anchors": ["splinepy/bspline.py: normalize_knot_vectors", "src/py/py_knot_vector.cpp: scale"]}
{"id": "C16", "title": "Unique knots and multiplicities decompose the knot vector", "statement": "unique_knots is strictly increasing, contains each knot of the valid range (up to the tolerance) and starts/ends at the parametric bounds; knot_multiplicities pairs with it so that repeating every unique knot by its multiplicity gives back the knot vector.", "quantifier": "every non-decreasing knot vector and degree", "why_tests_cant": "Universal over knot vectors; the two lists come from two different algorithms.", "anchors": ["src/py/py_parameter_space.cpp: unique_knots", "splinepy/spline.py: unique_knots, knot_multiplicities", "src/py/py_knot_vector.cpp: unique, multiplicities"]}
{"id": "C17", "title": "Greville abscissae are ordered and lie inside the parametric bounds", "statement": "greville_abscissae() returns for each axis one value per control point; the values are the means of `degree` consecutive knots, non-decreasing and inside the bounds; with a positive duplicate tolerance the values stay ordered and inside the bounds.", "quantifier": "every degree >= 1, every clamped non-decreasing knot vector, every tolerance", "why_tests_cant": "Universal over knot vectors; the de-duplication filter changes neighbours.", "anchors": ["include/splinepy/splines/helpers/properties.hpp: GetGrevilleAbscissae, GetParametricBounds"]}
{"id": "C18", "title": "Batched knot insertion handles multiplicities and reports success per knot", "statement": "insert_knots(axis, knots) inserts each requested knot as often as requested (subject to the per-knot limit of the kernel), independent of the order of the request, and the returned success flag of every requested knot corresponds to that knot.", "quantifier": "every list of knots with repetitions in any order", "why_tests_cant": "The code argsorts, groups and redistributes flags; correctness is a statement about all permutations with duplicates.", "anchors": ["src/py/py_spline_extensions.cpp: InsertKnots, RemoveKnots", "include/splinepy/utils/arrays.hpp: ArgSort, UniqueIndicesAndMultiplicities"]}
{"id": "C19", "title": "Bezier split pieces tile the original", "statement": "split(axis, locations) returns len(locations)+1 pieces; piece i restricted to its own unit interval traces the original between the i-th and (i+1)-th sorted location.", "quantifier": "every sorted or unsorted list of split locations in (0,1), every degree, control polygon, parameter", "why_tests_cant": "Universal over locations; the code re-scales locations relative to the remaining piece.", "anchors": ["src/py/py_spline_extensions.cpp: Split", "splinepy/bezier.py: split"]}
{"id": "C20", "title": "Bezier to B-spline conversion keeps the geometry", "statement": "The bspline / nurbs property of a Bezier type yields a spline with knot vectors 0^(d+1) 1^(d+1) whose basis functions are the Bernstein polynomials, so it has the same value at every parameter of the unit cube.", "quantifier": "every degree and parameter in [0,1]", "why_tests_cant": "Identity between two bases for all degrees and parameters.", "anchors": ["src/py/py_spline_extensions.cpp: SameSplineWithKnotVectors", "splinepy/bezier.py: bspline, nurbs"]}
{"id": "C21", "title": "Rational basis functions form a partition of unity", "statement": "basis() of a rational spline is non-negative for positive weights, sums to one at every query, is invariant under scaling all weights, and evaluate() is the same combination of control points.", "quantifier": "every weight vector with positive weighted sum, every query, every support", "why_tests_cant": "Universal over weights and queries.", "anchors": ["include/splinepy/splines/helpers/basis_functions.hpp: RationalBSplineBasis"]}
{"id": "C22", "title": "Rational basis derivatives satisfy the quotient rule", "statement": "basis_derivative() of a rational spline returns values R^(a) such that for every multi-order a: sum over b<=a of binom(a,b) w^(b) R_i^(a-b) = w_i N_i^(a), i.e. the derivative of the quotient.", "quantifier": "every parametric dimension, every derivative multi-order, every basis value", "why_tests_cant": "The implementation indexes intermediate orders with a mixed radix scheme; only induction covers all orders.", "anchors": ["include/splinepy/splines/helpers/basis_functions.hpp: RationalBSplineBasisDerivative"]}
{"id": "C23", "title": "The dense linear solver solves the system", "statement": "Matrix::Solve returns x with A x = b whenever no zero pivot is met, with pivoting by row order indirection; for singular matrices it divides by zero.", "quantifier": "every square matrix size, every matrix and right-hand side", "why_tests_cant": "Universal over matrices; row indirection bugs hide for well-ordered pivots.", "anchors": ["include/splinepy/utils/arrays.hpp: Matrix::Solve"]}
{"id": "C24", "title": "Clipping keeps parametric coordinates inside the search bounds", "statement": "After clipping, every coordinate is inside its bounds and coordinates that were inside are unchanged; the clip flags tell exactly on which side each coordinate was clipped.", "quantifier": "every coordinate vector and bounds", "why_tests_cant": "Universal over reals; NaN must be considered.", "anchors": ["include/splinepy/utils/arrays.hpp: Array::Clip", "src/proximity/proximity.cpp: Proximity::UpdateAndClip"]}
{"id": "C25", "title": "Proximity output is self-consistent and never worse than the initial guess", "statement": "proximities(return_verbose=True) returns a parametric coordinate inside the bounds, the physical point at that coordinate, the difference and distance between that point and the query, and the distance is at most the distance of the initial guess.", "quantifier": "every geometry, query and iteration history of the optimiser", "why_tests_cant": "Depends on the whole iteration history.", "anchors": ["src/proximity/proximity.cpp: Proximity::VerboseQuery"]}
{"id": "C26", "title": "A rejected property assignment leaves the spline unchanged", "statement": "If setting degrees / knot_vectors / control_points / weights raises, every property of the spline reads the same as before the failed assignment.", "quantifier": "every reachable spline state and every rejected value", "why_tests_cant": "Requires all histories and all invalid values.", "anchors": ["splinepy/spline.py: degrees, knot_vectors, control_points, weights setters, _new_core", "src/py/py_spline.cpp: PySpline::NewCore"]}
{"id": "C27", "title": "Cached properties agree with the core after every successful operation", "statement": "After any sequence of successful setters, knot insertions/removals, degree changes and in-place edits, reading a property (including the cached multi_index) gives the value the core spline has.", "quantifier": "every finite sequence of API calls", "why_tests_cant": "History-dependent cache invalidation.", "anchors": ["splinepy/spline.py: multi_index, _data handling, _new_core, clear", "splinepy/bspline.py: insert_knots, remove_knots"]}
{"id": "C28", "title": "In-place edits of control points reach the core", "statement": "spline.control_points[index] = value changes the evaluated geometry exactly as if the whole control point array with that edit had been assigned, for every numpy-style index.", "quantifier": "every index expression (integers, negative integers, slices with any start/stop/step, integer lists, boolean masks) and every value", "why_tests_cant": "Universal over index expressions.", "anchors": ["splinepy/utils/data.py: PhysicalSpaceArray.__setitem__", "src/utils/coordinate_pointers.cpp: ControlPointPointers::SetRow, SetRows, Sync"]}
{"id": "C29", "title": "Editing weights keeps the control points of rational splines", "statement": "Setting a weight of a rational spline changes that weight only: the (unweighted) control points, as reported by the spline, stay the same; setting control points keeps the weights.", "quantifier": "every control point, weight history with non-zero weights, and edit sequence", "why_tests_cant": "Homogeneous coordinates mix the two; the claim is over all edit histories.", "anchors": ["src/utils/coordinate_pointers.cpp: ControlPointPointers, WeightPointers", "include/splinepy/splines/nurbs.hpp: CurrentProperties"]}
{"id": "C30", "title": "Spline construction accepts exactly the consistent inputs", "statement": "Creating a spline succeeds iff degrees, knot vectors, control points and weights are mutually consistent: sizes match per dimension, knot vectors are non-decreasing and control points number prod(len(kv)-degree-1) (prod(degree+1) for Bezier); otherwise an error is raised.", "quantifier": "every combination of inputs", "why_tests_cant": "An acceptance criterion is a statement about all inputs.", "anchors": ["src/py/py_spline.cpp: PySpline::NewCore", "src/splines/splinepy_base.cpp: SplinepyCreate"]}
{"id": "C31", "title": "Interfaces are a symmetric matching of coinciding faces", "statement": "interfaces computed from face centers pair two faces iff their centers coincide up to the tolerance, symmetrically (if f is connected to g then g is connected to f), no face is connected to itself, all other faces are marked as boundary (-1); more than two coinciding faces raise.", "quantifier": "every list of face centers and every tolerance", "why_tests_cant": "Universal over point sets; sorting and window search interplay.", "anchors": ["src/py/py_multipatch.cpp: FindConnectivityFromCenters, InterfacesFromBoundaryCenters"]}
{"id": "C32", "title": "Multipatch caches follow patches and interfaces", "statement": "After assigning patches or interfaces, boundary_patch_ids, boundary_multipatch, sub_multipatch and interface data reflect the new assignment.", "quantifier": "every sequence of assignments and reads", "why_tests_cant": "History dependent.", "anchors": ["src/py/py_multipatch.cpp: PyMultipatch::Clear, SetInterfaces, GetInterfaces, BoundaryPatchIds, PySubMultipatch, PyBoundaryMultipatch, GetInterfaceOrientations"]}
{"id": "C33", "title": "Boundary bookkeeping partitions the boundary faces", "statement": "multipatch.boundaries lists every boundary face exactly once under its id; set_boundary, boundary_from_function and combine_boundaries change only boundary faces and never an inner interface.", "quantifier": "every interface table and every sequence of boundary edits", "why_tests_cant": "Invariant over operation sequences and all tables.", "anchors": ["splinepy/multipatch.py: boundaries, set_boundary, boundary_from_function, combine_boundaries"]}
{"id": "C34", "title": "boundaries_from_continuity groups exactly the connected smooth boundary patches", "statement": "After boundaries_from_continuity two boundary patches carry the same id iff they are connected through a chain of faces whose normals agree up to the tolerance; ids are contiguous starting at 1 and the reported number of boundaries is the number of ids.", "quantifier": "every adjacency graph and every smoothness relation", "why_tests_cant": "Graph reachability for all graphs; plus data races on a packed bit vector in the threaded precomputation.", "anchors": ["src/py/py_multipatch.cpp: AddBoundariesFromContinuity"]}
{"id": "C35", "title": "Multipatch compatibility checks raise iff some patch mismatches", "statement": "Assigning patches (or fields) raises iff at least one patch differs in a checked property, independent of nthreads, and the reported ids are exactly the mismatching patches.", "quantifier": "every list of patches and every nthreads >= 1", "why_tests_cant": "All lists and all thread counts.", "anchors": ["src/py/py_multipatch.cpp: RaiseMismatch, SetPatchesNThreads, AddFields"]}
{"id": "C36", "title": "Multipatch control point numbering is the concatenation of the patches", "statement": "control_point_offsets is the list of prefix sums of the patch sizes and control_points[offset_i : offset_{i+1}] are the control points of patch i.", "quantifier": "every list of patches", "why_tests_cant": "All lists of sizes.", "anchors": ["src/py/py_multipatch.cpp: GetControlPointOffsets, GetControlPoints, GetNumberOfControlPoints"]}
{"id": "C37", "title": "Gismo export and import preserve interfaces and boundary ids", "statement": "Loading a gismo file written by export gives a multipatch with the same interface table (inner interfaces and contiguous boundary ids).", "quantifier": "every valid interface table", "why_tests_cant": "Round trip over all tables.", "anchors": ["splinepy/io/gismo.py: export, load", "splinepy/multipatch.py: boundaries", "src/py/py_multipatch.cpp: GetInterfaceOrientations"]}
{"id": "C38", "title": "MFEM degree-of-freedom reordering is a permutation and load inverts export", "statement": "dof_mapping lists every control point exactly once for 2D and 3D splines; loading an exported file restores control points and weights; read_solution returns the reference's weights with the solution's values.", "quantifier": "every control mesh resolution >= 2 per axis", "why_tests_cant": "Permutation property over all resolutions in 3D.", "anchors": ["splinepy/io/mfem.py: _mfem_dof_map_2d, _mfem_dof_map_3d, load, export, read_solution"]}
{"id": "C39", "title": "MFEM cartesian export assigns each boundary the corner vertices of that face", "statement": "For each boundary face the exported vertex tuple consists of the corner vertices with the corresponding coordinate fixed.", "quantifier": "every control mesh resolution and every face", "why_tests_cant": "All resolutions.", "anchors": ["splinepy/io/mfem.py: export_cartesian"]}
{"id": "C40", "title": "npz / json export-import is the identity on spline data", "statement": "Loading a file written by export gives a list of splines with the same types, degrees, knot vectors, control points and weights, in the same order.", "quantifier": "every list of splines", "why_tests_cant": "Round trip over all lists and types.", "anchors": ["splinepy/io/npz.py", "splinepy/io/json.py", "splinepy/io/ioutils.py: dict_to_spline"]}
{"id": "C41", "title": "IRIT export-import restores rational control points", "statement": "Loading an irit file restores weights and unweighted control points of rational splines (up to rounding), knot vectors and degrees.", "quantifier": "every spline with non-zero weights", "why_tests_cant": "Round trip over all values.", "anchors": ["splinepy/io/irit.py: export, load"]}
{"id": "C42", "title": "Gismo field export numbers the supports per patch", "statement": "In the exported support matrix row (patch, field, k), k counts the rows of the same patch from 0 in row order.", "quantifier": "every support pattern of every list of fields", "why_tests_cant": "Index trick with stable argsort / bincount / cumsum for all patterns.", "anchors": ["splinepy/io/gismo.py: _spline_to_ET"]}
{"id": "C43", "title": "Microstructure tiling produces the requested number of tiles per axis", "statement": "create(knot_span_wise=False) produces tiling[k] tiles along axis k (or as many as there are knot spans if the tiling is smaller); create(knot_span_wise=True) produces tiling[k] tiles per knot span.", "quantifier": "every deformation function and tiling", "why_tests_cant": "Universal over tilings and knot vectors in all dimensions.", "anchors": ["splinepy/microstructure/microstructure.py: _additional_knots, _compute_tiling_prerequisites"]}
{"id": "C44", "title": "Closing tiles are placed exactly on the closing faces", "statement": "With closing_face=c the min-closing tile is used exactly for patches at the lower end of axis c and the max-closing tile exactly for those at the upper end.", "quantifier": "every element resolution and patch index", "why_tests_cant": "Depends on agreement of two enumerations in all dimensions.", "anchors": ["splinepy/microstructure/microstructure.py: create", "src/splines/helpers/extract.cpp: ExtractBezierPatchIDs"]}
{"id": "C45", "title": "Bezier patch extraction addresses the right control points", "statement": "The ids of Bezier patch (c_0, ..., c_n) are the control point ids o_k(c_k) + j_k with j_k = 0..degree_k and o_k(c) the sum of the multiplicities of inner knots 1..c; patches are listed first-axis-fastest.", "quantifier": "every parametric dimension, multiplicity pattern and patch", "why_tests_cant": "The code keeps running offsets across a mixed-radix loop; invariants over all iterations.", "anchors": ["src/splines/helpers/extract.cpp: ExtractBezierPatchIDs", "include/splinepy/splines/helpers/extract.hpp: ExtractBezierPatches"]}
{"id": "C46", "title": "Extrusion adds a linear direction", "statement": "create.extruded(v) evaluates at (u, t) to S(u) + t v for non-rational and rational splines; lower-dimensional splines are embedded with zeros.", "quantifier": "every spline, vector, parameter", "why_tests_cant": "Universal over splines and parameters.", "anchors": ["splinepy/helpme/create.py: extruded, embedded"]}
{"id": "C47", "title": "Created splines satisfy the constructor's consistency rules", "statement": "revolved / extruded / line / from_bounds hand the constructor knot vectors, degrees, control points and weights of matching sizes for every number of knot spans.", "quantifier": "every input spline and number of knot spans", "why_tests_cant": "All sizes.", "anchors": ["splinepy/helpme/create.py: revolved, extruded, line, box"]}
{"id": "C48", "title": "Integration over a spline with knot vectors equals the integral", "statement": "integrate.parametric_function(f) of a B-spline gives the quadrature approximation of the integral over the whole parametric domain; in particular refining the spline does not change the integral of a constant over an affine geometry.", "quantifier": "every knot vector, every affine geometry", "why_tests_cant": "Universal over partitions.", "anchors": ["splinepy/helpme/integrate.py: parametric_function"]}
{"id": "C49", "title": "Fitting uses the requested knot vector and builds valid knot vectors", "statement": "fit.curve(knot_vector=kv) returns a spline with knot vector kv; otherwise the computed knot vector is clamped on [0,1], non-decreasing, with n_control_points + degree + 1 entries.", "quantifier": "every sorted parametrization, degree and number of control points", "why_tests_cant": "Universal over parametrizations.", "anchors": ["splinepy/helpme/fit.py: compute_knot_vector, _prepare_default_bspline1pd, _validate_specifications"]}
{"id": "C50", "title": "Free form deformation maps every mesh vertex into the spline's domain", "statement": "After setting a mesh, all vertices handed to the spline lie in the unit cube; with the default spline the deformed mesh equals the input mesh up to the padding; replacing the mesh by one of another dimension works.", "quantifier": "every mesh, padding and sequence of mesh/spline assignments", "why_tests_cant": "Universal over meshes and histories.", "anchors": ["splinepy/helpme/ffd.py: FFD.mesh, FFD.spline, FFD.padding"]}
{"id": "C51", "title": "Knot insertion on clamped splines is exact and independent of request order", "statement": "For an axis whose knot vector is clamped at its lower end, whose last basis function does not vanish, and whose old and new knots are pairwise equal or at least the tolerance apart, knot_insertion_matrix(k, knots) succeeds for every list of knots strictly inside the bounds; multiplying it with the control points gives a well-formed spline over the refined knot vector with the same values everywhere; every row is a convex combination; the matrix does not depend on the order of the requested knots.", "quantifier": "every number of axes, every degree >= 1, every such knot vector, every list (with repetitions, any order) of new knots inside the bounds, every control mesh, every parameter", "why_tests_cant": "Real-valued identity over all splines; a test compares a few samples.", "anchors": ["src/py/py_knot_insertion_matrix.cpp: ComputeKnotInsertionMatrixAndKnotSpan, ComputeGlobalKnotInsertionMatrix", "splinepy/bspline.py: knot_insertion_matrix"]}
{"id": "C52", "title": "A successful assignment takes effect", "statement": "If assigning degrees / knot_vectors / control_points / weights returns without an error, the core spline has exactly the assigned value and keeps its other properties.", "quantifier": "every reachable spline state and every accepted value", "why_tests_cant": "A silently ignored assignment depends on the history of the cached properties.", "anchors": ["splinepy/spline.py: degrees, knot_vectors, control_points, weights setters, _safe_new_core, _prepare_coordinates", "src/py/py_spline.cpp: PySpline::NewCore"]}
{"id": "C53", "title": "Control points returned by a spline can be edited", "statement": "After any sequence of successful operations, an in-place edit of spline.control_points succeeds and reaches the core.", "quantifier": "every reachable spline state and every edit", "why_tests_cant": "Whether the cached array is writable depends on the whole history.", "anchors": ["splinepy/spline.py: _prepare_coordinates, control_points, weights", "splinepy/utils/data.py: PhysicalSpaceArray.view"]}
{"id": "C54", "title": "elevate_degrees raises each degree as often as requested or changes nothing", "statement": "elevate_degrees(dims) raises the degree of every axis by the number of times it is listed; if a listed dimension does not exist, it raises an error and the spline is unchanged.", "quantifier": "every spline and every list of requested dimensions", "why_tests_cant": "The grouping of requests and the error path depend on arbitrary lists.", "anchors": ["splinepy/spline.py: elevate_degrees", "src/py/py_spline.cpp: PySpline::ElevateDegrees", "include/splinepy/utils/arrays.hpp: UniqueIndicesAndMultiplicities"]}
{"id": "C55", "title": "interface_orientations lists every interface exactly once", "statement": "The table returned by interface_orientations has exactly one row for every pair of connected faces, with patch and local face of the face with the lower global id first and of its partner second.", "quantifier": "every interface table", "why_tests_cant": "All tables; the two loops (count, fill) must agree.", "anchors": ["src/py/py_multipatch.cpp: PyMultipatch::GetInterfaceOrientations"]}
{"id": "C56", "title": "Interface orientations map the parametric axes of adjacent patches", "statement": "For adjacent patches the orientation entry maps the axis normal to the face to the partner's normal axis, and every tangential axis to the partner's axis with parallel tangent, with flag 1 iff both point in the same direction.", "quantifier": "every pair of Jacobians at a common face and every tolerance below 1", "why_tests_cant": "All Jacobians; uninitialised memory is returned when no axis matches.", "anchors": ["src/py/py_multipatch.cpp: GetInterfaceOrientation"]}
{"id": "C57", "title": "extract_all_boundary_splines returns the boundary splines of all patches", "statement": "extract_all_boundary_splines(splines, interfaces, nthreads) returns the extracted boundary spline for every negative entry of interfaces, in order, for every nthreads.", "quantifier": "every interface table and every nthreads >= 1", "why_tests_cant": "Depends on nthreads and the number of patches.", "anchors": ["src/py/py_multipatch.cpp: ExtractAllBoundarySplines", "include/splinepy/utils/nthreads.hpp"]}
{"id": "C58", "title": "Multipatch queries are ordered by patch", "statement": "Multipatch.evaluate and Multipatch.sample return, row by row, what each patch returns on its own: rows are ordered by patch, then by query or grid point, for every number of threads and every order in which the threads write; face centers lie in the middle of their face.", "quantifier": "for every number of patches, queries, resolution >= 2, parametric dimension and nthreads >= 1, and every interleaving of the writes", "why_tests_cant": "tests compare a few patches with the default thread count; the thread counts, patch counts and interleavings are unbounded", "anchors": ["src/py/py_multipatch.cpp:1397", "src/py/py_multipatch.cpp:1430", "include/splinepy/splines/helpers/scalar_type_wrapper.hpp:67", "splinepy/multipatch.py:596"]}
{"id": "C59", "title": "Gismo files keep every patch", "statement": "Loading a gismo file written by export (labelled boundaries) gives the patches in order, with the same control points and weights, the same knot vectors (Bernstein knots for Bezier types) and the same values, and the same interface table.", "quantifier": "every non-empty list of Bezier, RationalBezier, BSpline and NURBS objects with properties the constructors accept and every valid interface table", "why_tests_cant": "Round trip over all patches and all parameters.", "anchors": ["splinepy/io/gismo.py: _spline_to_ET, export, load", "splinepy/bezier.py: bspline, nurbs"]}
{"id": "C60", "title": "Extracted Bezier patches reproduce the spline", "statement": "Every patch returned by the Bezier patch extraction has the degrees of the spline and no knot vectors, is rational exactly when the spline is, and takes at local parameters t in [0,1]^n the value of the spline at the corresponding parameters of its knot spans; patches are listed first-axis-fastest and there is one per tuple of spans.", "quantifier": "every spline in Bezier form (end multiplicity p+1, inner multiplicities >= p), every dimension, degree, number of spans and parameter", "why_tests_cant": "tests compare samples of a few splines; the claim quantifies over all multiplicity patterns and parameters", "anchors": ["src/splines/helpers/extract.cpp:29", "include/splinepy/splines/helpers/extract.hpp:226", "include/splinepy/splines/helpers/extract.hpp:267"]}
{"id": "C61", "title": "Revolving gives rotated copies; rational splines become exact surfaces of revolution", "statement": "create.revolved evaluates at its i-th knot to the spline turned by i/n of the angle about the axis through the center, and for rational splines every value is a value of the spline turned about that axis.", "quantifier": "every sound spline of dimension 1 to 3, axis, center, angle and number of segments", "why_tests_cant": "Universal over splines, parameters and segment counts; sampled points only show approximate circles.", "anchors": ["splinepy/helpme/create.py: revolved"]}
{"id": "C62", "title": "A line is the polyline through its points", "statement": "create.line(points) evaluates on the c-th of n equal parameter intervals to the straight segment between points c and c+1.", "quantifier": "every list of points of one dimension", "why_tests_cant": "Any number of points.", "anchors": ["splinepy/helpme/create.py: line"]}
{"id": "C63", "title": "Boxes and bounded boxes are affine", "statement": "create.box scales the unit cube, create.from_bounds maps the parametric box affinely onto the physical box.", "quantifier": "every number of dimensions and bounds", "why_tests_cant": "All dimensions and parameters.", "anchors": ["splinepy/helpme/create.py: box, from_bounds"]}
{"id": "C64", "title": "Arcs lie on the circle", "statement": "create.arc exists for every angle, all its points have the distance radius from the origin, and its knots divide the angle evenly, starting at the start angle.", "quantifier": "every radius, angle, start angle and number of knot spans", "why_tests_cant": "Universal over angles and parameters.", "anchors": ["splinepy/helpme/create.py: arc"]}
{"id": "C65", "title": "Fitted curves are best approximations", "statement": "fit.curve returns the spline over the fitting spline's basis functions with the smallest sum of squared distances to the points at the queries; it meets the points when there are as many control points as points; with interpolated end points it meets both end points and is best among the splines that do; the residual is the norm of the differences; points of a spline of that space give back this spline.", "quantifier": "every set of points, degree, knot vector and weights with independent basis functions at the queries", "why_tests_cant": "Universal over points and spline spaces.", "anchors": ["splinepy/helpme/fit.py: curve, solve_for_control_points"]}
{"id": "C66", "title": "Fitted surfaces meet the points", "statement": "fit.surface with as many control points as points in both directions returns a surface that takes the points as values at the queries; points of a surface of the same space give back its control points.", "quantifier": "every grid of points, degrees and weights with independent basis functions at the queries", "why_tests_cant": "Universal over grids of points and spaces.", "anchors": ["splinepy/helpme/fit.py: surface"]}
{"id": "C67", "title": "Volume is the composite quadrature of the measure of the map", "statement": "integrate.volume of a spline is the sum, over all elements between neighbouring knots, of the size of the element times the tensor product Gauss rule (default orders: exact for degree * para_dim + 1, + 2 for rational splines) of the measure of the Jacobian (determinant, or square root of the Gram determinant). For an affine geometry it is the measure of the matrix times the size of the parametric domain, for all knots and all orders.", "quantifier": "every spline with or without weights, all knots clamped at the ends, all orders", "why_tests_cant": "Universal over knot vectors, degrees, geometries and quadrature orders.", "anchors": ["splinepy/helpme/integrate.py: volume, _get_integral_measure, _get_quadrature_information"]}
{"id": "C68", "title": "Volume of polynomial splines is exact", "statement": "For a spline without weights whose image has as many dimensions as its parametric domain, the volume computed with the default orders (or orders o with degree * para_dim <= 2 o) is the sum over all elements of the integral of the determinant of the Jacobian. The determinant is on each element a polynomial of degree para_dim * degree - 1 along each axis. Two splines with the same domain and the same values have the same volume, whatever their degrees, knots and orders.", "quantifier": "every non-rational spline with dim = para_dim, all degrees, all knots clamped at the ends, all sufficient orders", "why_tests_cant": "Universal over degrees, knot vectors, control points and pairs of representations of one map; tests compare single volumes up to a tolerance.", "anchors": ["splinepy/helpme/integrate.py: volume, _get_integral_measure, _get_quadrature_information"]}
{"id": "C69", "title": "Volume does not depend on the orientation", "statement": "The computed volume is not negative and does not change if a parametric axis is reversed.", "quantifier": "every spline with dim >= para_dim", "why_tests_cant": "Tests use shapes of one orientation only.", "anchors": ["splinepy/helpme/integrate.py: _get_integral_measure, volume"]}
{"id": "C70", "title": "determinant_spline is the determinant of the Jacobian", "statement": "For a polynomial spline whose image has as many dimensions as its parametric domain, create.determinant_spline returns a scalar spline on the same domain whose value is the determinant of the Jacobian of the spline, at every point of the domain. It has degree degree * dim - 1 along each axis.", "quantifier": "every spline without weights or with equal weights, all degrees, dimensions, clamped knot vectors, control points, every exact linear solver", "why_tests_cant": "Tests compare sampled values of a few splines; whether the sample points determine the result depends on the knots (Schoenberg-Whitney) and whether the determinant lies in the chosen space depends on all multiplicities.", "anchors": ["splinepy/helpme/create.py: determinant_spline", "splinepy/utils/data.py: make_matrix"]}
{"id": "C71", "title": "Positive control points of the determinant spline exclude tangling", "statement": "If all control points of the determinant spline exceed a bound, so does the determinant of the Jacobian everywhere on the domain; in particular a spline with positive control points is not tangled. The converse does not hold.", "quantifier": "every spline of the kind of C70, every bound", "why_tests_cant": "A test can only look at finitely many points of the domain.", "anchors": ["splinepy/helpme/create.py: determinant_spline"]}
{"id": "C72", "title": "Mapped derivatives are derivatives with respect to the physical coordinates", "statement": "At any point where the Jacobian of the geometry is invertible, Mapper's gradient, divergence, Hessian and Laplacian of a field (and of each of its basis functions) are the derivatives of the field as a function of the coordinates of the geometry, whichever combination of results is requested; other geometries and non-vector divergences are refused.", "quantifier": "every field and geometry (polynomial or rational) of any dimension with differentiable values at the point, every back end returning parametric derivatives, every combination of flags", "why_tests_cant": "Tests compare a few polynomials on a few geometries; the chain rule terms with the geometry's second derivatives, their index order and the shortcuts for traces must hold for all of them.", "anchors": ["splinepy/helpme/mapper.py: Mapper.__init__", "splinepy/helpme/mapper.py: Mapper.basis_function_derivatives", "splinepy/helpme/mapper.py: Mapper.field_derivatives"]}
{"id": "C73", "title": "Neighbouring tiles conform", "statement": "Set next to each other, two tiles of one class that agree in the parameter of the common face meet facet to facet: every facet of the one in the common plane is a facet of the other with the same points, and there is at least one. This holds for open tiles, between an open and a closing tile, and along a closed side.", "quantifier": "every tile class named, all parameters the class accepts (closure included), every implementation of numpy's sin, cos and sqrt with the stated bounds", "why_tests_cant": "Tests look at the default parameters; a facet that matches for equal parameters on all faces need not match when only the shared face agrees, or beside a closing tile.", "anchors": ["splinepy/microstructure/tiles/cross_2d.py: Cross2D", "splinepy/microstructure/tiles/cross_3d.py: Cross3D", "splinepy/microstructure/tiles/cross_3d_linear.py: Cross3DLinear", "splinepy/microstructure/tiles/double_lattice.py: DoubleLattice", "splinepy/microstructure/tiles/hollow_octagon.py: HollowOctagon", "splinepy/microstructure/tiles/hollow_octagon_extrude.py: HollowOctagonExtrude", "splinepy/microstructure/tiles/snappy.py: Snappy", "splinepy/microstructure/tiles/chi.py: Chi", "splinepy/microstructure/tiles/hollow_cube.py: HollowCube", "splinepy/microstructure/tiles/cube_void.py: CubeVoid", "splinepy/microstructure/tiles/ellips_v_oid.py: EllipsVoid"]}
{"id": "C74", "title": "Tiles stay in the unit cell", "statement": "Every point of every patch of a tile lies in the unit cell, for all parameters that are accepted.", "quantifier": "every tile class named, all parameters the class accepts (closure included), every implementation of numpy's sin, cos and sqrt with the stated bounds", "why_tests_cant": "Tests sample points of a few tiles; leaving the cell happens for parameters near the accepted bounds.", "anchors": ["splinepy/microstructure/tiles/cross_2d.py: Cross2D", "splinepy/microstructure/tiles/cross_3d.py: Cross3D", "splinepy/microstructure/tiles/cross_3d_linear.py: Cross3DLinear", "splinepy/microstructure/tiles/double_lattice.py: DoubleLattice", "splinepy/microstructure/tiles/hollow_octagon.py: HollowOctagon", "splinepy/microstructure/tiles/hollow_octagon_extrude.py: HollowOctagonExtrude", "splinepy/microstructure/tiles/snappy.py: Snappy", "splinepy/microstructure/tiles/chi.py: Chi", "splinepy/microstructure/tiles/hollow_cube.py: HollowCube", "splinepy/microstructure/tiles/cube_void.py: CubeVoid", "splinepy/microstructure/tiles/ellips_v_oid.py: EllipsVoid"]}
{"id": "C75", "title": "Derivative tiles are the rates of change", "statement": "Patch by patch and at every parametric position, the derivative tiles returned for given parameter sensitivities are the rates at which the tile changes when the parameters move along the sensitivities; there is one for every design variable.", "quantifier": "every tile class named, all parameters the class accepts (closure included), every implementation of numpy's sin, cos and sqrt with the stated bounds, all sensitivities", "why_tests_cant": "A finite difference test has rounding and picks a few directions and parameters.", "anchors": ["splinepy/microstructure/tiles/cross_2d.py: Cross2D", "splinepy/microstructure/tiles/cross_3d.py: Cross3D", "splinepy/microstructure/tiles/cross_3d_linear.py: Cross3DLinear", "splinepy/microstructure/tiles/double_lattice.py: DoubleLattice", "splinepy/microstructure/tiles/hollow_octagon.py: HollowOctagon", "splinepy/microstructure/tiles/hollow_octagon_extrude.py: HollowOctagonExtrude", "splinepy/microstructure/tiles/snappy.py: Snappy", "splinepy/microstructure/tiles/chi.py: Chi", "splinepy/microstructure/tiles/hollow_cube.py: HollowCube", "splinepy/microstructure/tiles/cube_void.py: CubeVoid", "splinepy/microstructure/tiles/ellips_v_oid.py: EllipsVoid"]}
{"id": "C76", "title": "Patches of tiles are regular and right-handed", "statement": "The Jacobian determinant of every patch of a tile is positive at all inner points, for all parameters that are accepted.", "quantifier": "every tile class named, all parameters the class accepts (closure included), every implementation of numpy's sin, cos and sqrt with the stated bounds, every inner point of every patch", "why_tests_cant": "A test evaluates the determinant at finitely many points for finitely many parameters.", "anchors": ["splinepy/microstructure/tiles/cross_2d.py: Cross2D", "splinepy/microstructure/tiles/cross_3d.py: Cross3D", "splinepy/microstructure/tiles/cross_3d_linear.py: Cross3DLinear", "splinepy/microstructure/tiles/double_lattice.py: DoubleLattice", "splinepy/microstructure/tiles/hollow_octagon.py: HollowOctagon", "splinepy/microstructure/tiles/hollow_octagon_extrude.py: HollowOctagonExtrude", "splinepy/microstructure/tiles/snappy.py: Snappy", "splinepy/microstructure/tiles/chi.py: Chi", "splinepy/microstructure/tiles/hollow_cube.py: HollowCube", "splinepy/microstructure/tiles/cube_void.py: CubeVoid", "splinepy/microstructure/tiles/ellips_v_oid.py: EllipsVoid"]}
{"id": "C77", "title": "Closing tiles fill the side they close", "statement": "Every point of the side of the cell named by closure is a point of the closing tile.", "quantifier": "Cross2D, Cross3D, Cross3DLinear and HollowOctagon, every closure, all accepted parameters, every point of the side", "why_tests_cant": "Gaps are areas between patches; tests that evaluate the patches never look there.", "anchors": ["splinepy/microstructure/tiles/cross_2d.py: Cross2D._closing_tile", "splinepy/microstructure/tiles/cross_3d.py: Cross3D._closing_tile", "splinepy/microstructure/tiles/cross_3d_linear.py: Cross3DLinear._closing_tile", "splinepy/microstructure/tiles/hollow_octagon.py: HollowOctagon._closing_tile"]}
{"id": "C78", "title": "Bezier extraction matrices give the control points of the patches", "statement": "knot_insertion_matrix(beziers=True) returns one matrix per element of the knot grid. Its rows are convex combinations of the control points of the spline. The Bezier spline of the combined control points (homogeneous coordinates for rational splines) equals the spline at every point of the element.", "quantifier": "all dimensions, degrees, knot vectors with different knots at least the tolerance apart, control points, positive weights, elements and points of an element", "why_tests_cant": "The test compares with extract_bezier_patches at random knots of two fixtures; both sides insert knots, no test looks at the value of all points, and clamped fixtures hide writes behind the end of an array.", "anchors": ["src/py/py_knot_insertion_matrix.cpp: BezierExtractionMatrices", "splinepy/bspline.py: BSplineBase.knot_insertion_matrix"]}
{"id": "C79", "title": "Revolving rational splines with computed sines and cosines", "statement": "revolved returns for a rational spline a spline whose value at the m-th knot of the new axis is the given one turned by m segments, and whose every value is the given one turned by a pair (cosine, sine) of squared norm within explicit bounds of 1. The bounds depend only on how far the computed sines and cosines are from Pythagoras and from sin(pi/2 - a) = cos(a), and on the number of segments.", "quantifier": "all splines, axes, centers, angles, segment numbers, sines and cosines up to a relative error of 1/24, parameters", "why_tests_cant": "Tests compare control points at hard-coded angles with assert_allclose; they cannot bound the error between knots for all angles and segment numbers.", "anchors": ["splinepy/helpme/create.py: revolved"]}
{"id": "C80", "title": "Disks, spheres and tori are what they are called", "statement": "disk, sphere and torus return splines whose points are exactly the points of a disk, ring, ball, shell or ring torus of the given radii and angles, up to the error of the computed sines and cosines; degree tells whether angles are in degrees; every valid combination of the optional angles and radii is accepted.", "quantifier": "all radii, angles, segment numbers, parameters", "why_tests_cant": "Tests check closed surfaces at a few random radii and with both angles given or none.", "anchors": ["splinepy/helpme/create.py: disk", "splinepy/helpme/create.py: sphere", "splinepy/helpme/create.py: torus"]}
{"id": "C81", "title": "Disks of one rational patch have the given radius", "statement": "plate and surface_circle return a biquadratic rational Bezier patch; its boundary is on the circle of the given radius about the origin and the rest is within.", "quantifier": "all radii, all parameters, computed 1/sqrt(2) up to a relative error of 1/24", "why_tests_cant": "No test evaluates plate or surface_circle off its control points; the radius of plate is never compared with the argument.", "anchors": ["splinepy/helpme/create.py: plate", "splinepy/helpme/create.py: surface_circle"]}
{"id": "C82", "title": "Cones and pyramids", "statement": "cone(volumetric) and pyramid return the segments from the points of a disk (a rectangle) to the apex above it at the given height.", "quantifier": "all radii, heights, angles, side lengths, parameters", "why_tests_cant": "Tests check volumes at single sizes of order 1; the apex is found with np.isclose, which no test tries with small heights.", "anchors": ["splinepy/helpme/create.py: cone", "splinepy/helpme/create.py: pyramid"]}
{"id": "C83", "title": "Parts of splines", "statement": "extract.spline with two values on one axis returns a spline whose values are those of the spline between them: over the same parameters for splines with knot vectors, over the unit interval for Bezier splines. With one value it returns the spline with this axis fixed. Values outside the knots are refused.", "quantifier": "all clamped splines of any number of axes, degrees >= 1, weights; all pairs of values separated from other knots", "why_tests_cant": "Tests extract parts of two polynomial Bezier splines at six values; never of splines with weights or inner knots, where the indices depend on the multiplicities of the knots at the values.", "anchors": ["splinepy/helpme/extract.py: spline", "splinepy/bspline.py: insert_knots"]}
{"id": "C84", "title": "Parts of splines on several axes", "statement": "extract.spline with a dictionary returns the part cut on all axes of the dictionary: axes with a single value disappear, the others keep their order, and the values are those of the spline. The order of the items does not matter.", "quantifier": "all dictionaries of distinct axes, values and intervals; all clamped splines", "why_tests_cant": "No test uses a dictionary; axes are renumbered after each single value, so only the order of cutting keeps later items on the right axis.", "anchors": ["splinepy/helpme/extract.py: Extractor.spline"]}
{"id": "C85", "title": "The check of queries accepts exactly the parametric domain and names an offending query", "statement": "spline.check.valid_queries(queries) returns True exactly if the queries have para_dim columns and each row lies within the parametric bounds; otherwise the ValueError names a dimension and a row that is out of bounds in that dimension.", "quantifier": "all splines, all arrays of queries", "why_tests_cant": "Finitely many queries leave open which rows decide minimum and maximum and which dimension is named.", "anchors": ["splinepy/helpme/check.py:8-57", "splinepy/spline.py:1155-1156"]}
{"id": "C86", "title": "The check for clamped knot vectors decides whether end knots appear degree + 1 times", "statement": "spline.check.clamped_knot_vectors() is True exactly if in each axis the first and the last knot appear at least degree + 1 times (knots further apart than the tolerance), and a spline found clamped takes its corner control points at the corners of its parametric domain.", "quantifier": "all splines with well-formed knot vectors whose end knots are told apart from others by the tolerance; corners: end knots at most degree + 1 times", "why_tests_cant": "Tests use open knot vectors of a few degrees.", "anchors": ["splinepy/helpme/check.py:60-98"]}
{"id": "C87", "title": "extract.edges draws the knot lines of a spline", "statement": "extract.edges() of a spline with two or more parametric dimensions connects exactly the neighbouring samples of the lines along each axis through every choice of knots (or of bounds with all_knots=False) of the other axes; each vertex belongs to exactly one sample of one line and no edge occurs twice. Curves are connected sample by sample and multipatches patch after patch.", "quantifier": "all splines of any parametric dimension, degrees, knot vectors with knots further apart than the tolerance, resolutions per axis, both values of all_knots, all multipatches", "why_tests_cant": "Tests cannot see lines of other dimensions or permuted columns of queries for all axes.", "anchors": ["splinepy/helpme/extract.py:18-121", "splinepy/utils/data.py:346-396"]}
{"id": "C88", "title": "extract.bases shows the basis functions", "statement": "extract.bases() returns one spline per chosen id; its last coordinate is the basis function of that id, and its other coordinates are the points of the spline or, with parametric_view=True, the parameters, so that it is the graph of the basis function. Ids outside of the control points raise.", "quantifier": "all splines of any parametric dimension and degrees, all lists of ids (also negative), with and without parametric_view, all implementations of degree elevation and knot insertion that keep the values", "why_tests_cant": "Tests look at single splines; rational weights, inner knots of higher multiplicity and unclamped ends change the view without an error.", "anchors": ["splinepy/helpme/extract.py:603-648", "splinepy/helpme/create.py:458-518"]}
{"id": "C89", "title": "Meshes of faces and volumes have one cell per grid cell, and the faces of a volume are its closed surface", "statement": "extract.faces of a surface and extract.volumes of a volume return one vertex per position of the sample grid with the point of the spline there, and one cell per grid cell, each once. extract.faces of a clamped volume returns exactly the unit squares on the surface of the sample grid, for equal and for different resolutions, so that every edge belongs to exactly two of them; neighbouring faces run along a common edge in opposite directions. Several patches are numbered one after the other. The control mesh has the control points as vertices and the cells of the control grid.", "quantifier": "every spline with two or three axes, every resolution of at least two per axis, every list of patches", "why_tests_cant": "tests check a few resolutions and counts; the agreement of the uniform and non-uniform code paths and closedness are about all resolutions", "anchors": ["splinepy/helpme/extract.py:124-145", "splinepy/helpme/extract.py:148-282", "splinepy/helpme/extract.py:301-405"]}
{"id": "C90", "title": "Removing knots and lowering degrees does what the returned flags say", "statement": "remove_knots(axis, knots) returns one flag per requested knot, in order of the request; afterwards the knot vector of the axis lacks one copy of every flagged knot and nothing else changed but the control points; the geometry moves by at most the tolerance for every flagged knot; a knot outside the knot vector or an axis that does not exist raises an error and changes nothing. reduce_degrees(axes) lowers the degree of every axis by its number of flags, with the same bound; an axis that does not exist raises an error and changes nothing. Properties read afterwards are those of the spline.", "quantifier": "every B-spline / NURBS, every list of requests, every tolerance", "why_tests_cant": "The requests are worked off one after the other on a changing spline, with any pattern of successes and failures in between.", "anchors": ["splinepy/bspline.py: remove_knots", "splinepy/spline.py: reduce_degrees", "src/py/py_spline_extensions.cpp: RemoveKnots", "src/py/py_spline.cpp: PySpline::ReduceDegrees", "include/splinepy/splines/helpers/scalar_type_wrapper.hpp: ScalarTypeRemoveKnot, ScalarTypeReduceDegree"]}
{"id": "C91", "title": "CATS files keep the splines", "statement": "Writing a list of splines with cats.export and reading the file with cats.load gives splines in the same order with the same control points, degrees, knots and weights; Bezier splines come back with knot vectors and, with make_rational, all splines come back with weights, and each describes the same map. For files from elsewhere, load returns as many splines as the file states, refuses closed axes and keeps the coordinates of control points that carry further variables.", "quantifier": "all lists of splines of all classes that can be stored, both values of make_rational; all files that are accepted", "why_tests_cant": "Tests round-trip single examples; wrong order, lost weights or rows cut at the wrong length show up only for some dimensions and patch lists.", "anchors": ["splinepy/io/cats.py:41-173", "splinepy/io/cats.py:176-324", "splinepy/io/ioutils.py:134-151"]}
{"id": "C92", "title": "Cross3D and InverseCross3D fill the cell", "statement": "Made with the same parameters, center expansion and closing, Cross3D and InverseCross3D fit together: each facet of each patch of the two tiles lies in the side of the unit cell it faces, or it is, with the same parametrization, the opposite facet of another patch of the two tiles. So the patches leave no gap and the mesh of the two materials is conforming.", "quantifier": "all center expansions, separator distances, boundary widths, filling heights and thicknesses both tiles accept; the plain tile and both closings", "why_tests_cant": "Tests compare single parameter sets, mostly equal thicknesses, where the minimum of the branch and the center thickness makes no difference; gaps show up only for uneven thicknesses or wide boundaries.", "anchors": ["splinepy/microstructure/tiles/inverse_cross_3d.py:36-886", "splinepy/microstructure/tiles/inverse_cross_3d.py:886-1615", "splinepy/microstructure/tiles/cross_3d.py:32-743"]}
