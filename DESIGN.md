# Formal model of splinepy: design

Subject: the sources in `/repo` (tataratat/splinepy at the pinned commit), read as text.
Tool: Rocq/Coq 8.16.1, standard library only (no third-party axioms).

## Trusted base

* The Coq kernel (and `vm_compute` for concrete witnesses).
* `Print Assumptions` is printed under every property theorem (files `T_*.v`).
  The goal is *Closed under the global context* everywhere.
* The hand translation from C++/Python to Gallina in the `M_*.v` files.
  Every definition cites the file and lines it models and says what is simplified.
* Numbers: C++ `double` is modelled by canonical rationals `Qc`.
  Rounding, overflow, infinities and NaN are **not** modelled.
  Where the code relies on a comparison with NaN or divides by zero the model has an explicit error value or
  the theorem has a hypothesis excluding it.
  C++ `int` is modelled by `Z` or `nat` without overflow.
* `third_party/` (BSplineLib, bezman, napf, pybind11) is empty in `/repo`, so nothing in it is modelled from code.
  Where the library's result matters, its mathematical definition (Cox-de Boor basis, Bernstein basis,
  de Casteljau) is used as *specification* of the external call, or the call is an explicit function argument
  (an oracle) quantified over in the theorem.

## Layout (`rocq/theories`)

| prefix | content |
|---|---|
| `Base*.v` | list / `Qc` / mixed radix / sorting lemmas and tactics, not specific to splinepy |
| `M_*.v` | model: definitions mirroring the code, each with the cited file and lines |
| `S_*.v` | specification: what the user relies on, stated without the model's helpers |
| `P_*.v` | proofs |
| `W_*.v` | concrete witnesses and assembly of the property theorems |
| `T_*.v` | property theorems only, each closed by `exact`, with `Print Assumptions`, and `Example`s that meet the hypotheses |

A property that the code does not have gets a `..._refuted` theorem with a concrete witness, plus the strongest
positive theorem that does hold (the condition under which the code behaves); its claim in `MANIFEST.json` is `partial`
and the note says so.  A theorem whose name ends in `_partial` proves less than the property asks for.

| properties | theorems | model | code |
|---|---|---|---|
| C01-C04 | `T_Threads` | `M_Threads` | include/splinepy/utils/nthreads.hpp, worker loops of py_spline.cpp, py_multipatch.cpp |
| C05-C07, C09 | `T_Grid` | `M_Grid`, `M_Numpy` | grid_points.hpp, utils/data.py cartesian_product, helpme/multi_index.py |
| C08 | `T_Extract` | `M_Extract` | splines/helpers/extract.hpp 45-172 |
| C10, C11 | `T_Reparam` | `M_Reparam` | helpme/reparametrize.py |
| C12, C13, C51 | `T_KnotInsert` | `M_KnotInsert` | src/py/py_knot_insertion_matrix.cpp |
| C14-C18 | `T_Knots` | `M_Knots` | src/py/py_parameter_space.cpp, src/py/py_knot_vector.cpp, spline.py, bspline.py (unique knots, Greville abscissae, insert_knots, uniform_refine, normalize_knot_vectors) |
| C19-C22 | `T_Bezier` | `M_Bezier`, `M_Rational` | bezier split, family conversions, basis_functions.hpp |
| C23-C25 | `T_Prox` | `M_Solve`, `M_Prox` | utils/arrays.hpp (Solve, Clip), proximity.hpp/.cpp |
| C26, C27, C30, C52-C54 | `T_Core` | `M_Core`, `M_Elevate` | spline.py properties and `_data`, py_spline.cpp NewCore, elevate_degrees |
| C28, C29 | `T_Coords` | `M_Coords` | utils/data.py PhysicalSpaceArray, coordinate_pointers.cpp |
| C31, C55-C57 | `T_Interfaces` | `M_Interfaces` | py_multipatch.cpp interface search and orientation |
| C32, C35, C36, C58 | `T_Patches` | `M_Patches` | py_multipatch.cpp caches, checks, control point numbering, queries |
| C33, C34 | `T_Boundaries` | `M_Boundaries` | multipatch.py boundaries, AddBoundariesFromContinuity |
| C37, C42, C59 | `T_Gismo` | `M_Gismo` | io/gismo.py |
| C38, C39 | `T_Mfem` | `M_Mfem` | io/mfem.py |
| C40 | `T_Files` | `M_Files` | io/npz.py, io/json.py |
| C41 | `T_Irit` | `M_Irit` | io/irit.py |
| C43, C44 | `T_Micro` | `M_Micro` | microstructure/microstructure.py |
| C45, C60 | `T_Pieces` | `M_Pieces` | splines/helpers/extract.cpp, extract.hpp 226-332 |
| C46, C47, C61-C64 | `T_Create` | `M_Create` | helpme/create.py |
| C48, C67 | `T_Integrate` | `M_Integrate` | helpme/integrate.py, create.parametric_view |
| C68, C69 | `T_Exact` | `M_Integrate` | helpme/integrate.py |
| C70, C71 | `T_Determinant` | `M_Determinant` | create.determinant_spline |
| C72 | `T_Mapper` | `M_Mapper` | helpme/mapper.py |
| C73-C77 | `T_Tiles`, `T_TileTurn`, `T_TileFit` | `M_Tiles`, `M_Tile2D`, `M_Tile3D`, `M_TileMake`, `M_TileInverse` | microstructure/tiles (all classes but Armadillo; of InverseCross3D gluing, position and C92, with a counterexample for C76) |
| C78 | `T_Extraction` | `M_Extraction` | src/py/py_knot_insertion_matrix.cpp 345-468, bspline.py 225-256 |
| C79-C82 | `T_Primitives` | `M_Primitives`, `M_Create` | helpme/create.py 657-1002 |
| C83 | `T_SubSpline` | `M_SubSpline` | helpme/extract.py 407-508, bspline.py 75-123 |
| C84 | `T_SubDict` | `M_SubDict` | helpme/extract.py 724-754 |
| C85, C86 | `T_Check` | `M_Check` | helpme/check.py 8-98 |
| C87 | `T_Edges` | `M_Edges` | helpme/extract.py 18-121 |
| C88 | `T_Bases` | `M_Bases` | helpme/extract.py 603-648, helpme/create.py 458-518 (conform=True) |
| C89 | `T_Faces` | `M_Faces` | helpme/extract.py 124-405 (watertight=False; connectivity of gustaf as documented) |
| C90 | `T_Reduce` | `M_Reduce` | bspline.py 271-324; spline.py 1507-1541; py_spline_extensions.cpp 65-79; py_spline.cpp 808-824; scalar_type_wrapper.hpp 214-222, 270-293 |
| C91 | `T_Cats` | `M_Cats` | io/cats.py 41-324; ioutils.py 134-151 (splines through `M_Files.generic`) |
| C92 | `T_TileFit` | `M_TileInverse`, `M_TileMake` | microstructure/tiles/inverse_cross_3d.py, cross_3d.py |
| C49, C65, C66 | `T_Fit` | `M_Fit` | helpme/fit.py |
| C50 | `T_Ffd` | `M_Ffd` | helpme/ffd.py |

## External code as oracles

External functions are arguments of the model, restricted by a contract in the specification files.  For every contract
there is an implementation in Coq that is proved to meet it, so the theorems are not vacuous.

| oracle | contract | implementation |
|---|---|---|
| square root (C31, C56) | `root_bound`, `root_exact` | `T_Interfaces` examples |
| cos, sin, norm, rotation matrix (C61, C64) | `circular`, `rotates`, `measures` | `turn_oracles` |
| the same, computed (C79-C82) | `nearly_circular`, `rotates`; 1/sqrt(2) with `2 w w` near 1 | `prim_oracles` |
| norm, sqrt, spsolve, lstsq (C49, C65, C66) | contracts of `S_Fit` | exact elimination (`M_Solve`) |
| leggauss, sqrt, insert_knots, knots added before cutting (C48, C67) | `gaussian`, `rooting`, `inserting`, `idle` | `int_example` (knot insertion by the matrices of C12) |
| exactness and positive weights of leggauss (C68, C69) | `exact_rule`, `positive_rule` | `full_rule` (interpolation at 2 n points), `flat_rule` |
| numpy sin, cos, sqrt, pi (C73-C77) | `bounded_trig`, `root3_bounds`, signs of roots; slopes at an angle `trig_slopes` | `some_libm`, `turning_libm` |
| linear solver (C70, C71) | `linear_solver` | exact elimination (`gauss`) |
| parametric derivatives, numpy.linalg.inv (C72) | `basis_right`, `geometry_right`, `inverting` | `exact_backend` (all polynomial splines) |
| Bezier split at one point (C19) | contract in `S_Bezier` | de Casteljau |
| knot insertion of BSplineLib (C14, C18, C43) | `inserts_new` | list insertion |
| knot insertion, one knot more at its place or p + 1 of them already (C83) | `raises_multiplicity` | `insert_one` (matrices of C12, homogeneous coordinates) |
| degree elevation of one polynomial piece (C88) | `elevates_spans` | `lift` (elevation matrices, one degree at a time) |
| evaluation, basis functions, derivatives | their mathematical definition (`S_Spline`, `S_Value`, `S_Deriv`) | - |
| RemoveKnot, ReduceDegree of BSplineLib (C90) | `removes_knot`, `lowers_degree` | `remove_one`, `reduce_one` (curves, exact) |
| ElementTree writing and parsing (C91) | `reparse`: the tree without comments; texts cut at white space; doubles printed exactly | defined in the model |

## Not modelled

Plotting (`show`, vedo / gustaf drawing, show_options), logging, `helpme/visualize.py`, command line parts, svg / iges / vtk
export, Levenberg-Marquardt and SLSQP internals (the proximity theorems quantify over every sequence of iterates),
composition and determinant products of bezman, knot removal and degree reduction inside BSplineLib, the tile
Armadillo, and everything about floating point rounding.  Threads are interleavings of single writes; the C++
memory model below that (torn writes, vector<bool> bits excepted, see C34) is not modelled.

## Plan per property

Status is tracked in `MANIFEST.json`. This table says what is modelled and how it is proved.

| id | modelled code | proof method |
|---|---|---|
| C01 | `NThreadExecution` step branch (nthreads.hpp) | arithmetic: exact partition iff `(n-1)*chunk <= total`; refuted in general |
| C02 | strided loops in py_multipatch.cpp | arithmetic; error branch for nthreads <= 0 |
| C03 | writes of all workers into the result buffer | induction over interleavings (permutation of disjoint writes) |
| C04 | `ExtractAllBoundarySplines` | coverage refuted, positive for n_threads >= patches |
| C05 | `GridPoints`, `cartesian_product` | induction over dimensions |
| C06 | `GridPoints::SetUp` | order arithmetic |
| C07 | `IdsOnHyperPlane` | induction over dimensions |
| C08 | boundary extraction | tensor-product semantics + end-point interpolation by induction on degree |
| C09 | `MultiIndex` | mixed radix bijection, induction |
| C10, C11 | `permute_parametric_axes`, `flip_axes` | reindexing of tensor sums; symmetry of Cox-de Boor |
| C12, C13 | knot insertion matrix | Boehm identity by induction on degree; fold over inserted knots |
| C14 | `uniform_refine` | list induction |
| C15 | `normalize_knot_vectors` | affine invariance by induction on degree |
| C16 | unique knots / multiplicities | list induction |
| C17 | Greville abscissae | order arithmetic, list induction |
| C18 | `InsertKnots` | list induction, permutations |
| C19 | `Split` | de Casteljau composition, induction |
| C20 | Bezier to B-spline | induction on degree |
| C21 | rational basis | sums |
| C22 | rational basis derivatives | mixed radix + strong induction over orders |
| C23 | `Matrix::Solve` | loop invariants |
| C24 | `Clip` | case analysis, list induction |
| C25 | `VerboseQuery` | invariant over the iteration history |
| C26, C27 | python state machine of `Spline` | invariants over operation sequences, refutations |
| C28, C29 | `PhysicalSpaceArray`, coordinate pointers | state machine, refinement to whole-array assignment |
| C30 | `NewCore` | boolean acceptance = specification |
| C31 | `FindConnectivityFromCenters` | loop invariants, refutation without transitivity |
| C32 | caches of `PyMultipatch` | state machine, refutations |
| C33 | boundary bookkeeping in multipatch.py | list induction, invariants over edit sequences |
| C34 | flood fill | graph reachability invariants |
| C35 | `RaiseMismatch` | list induction |
| C36 | control point offsets | list induction |
| C37 | gismo interfaces | round trip |
| C38, C39 | mfem dof maps | permutations, round trip |
| C40 | npz / json | round trip at the level of the dictionary keys |
| C41 | irit homogeneous coordinates | round trip |
| C42 | support numbering | list induction |
| C43, C44 | microstructure | greedy invariant, enumeration |
| C45 | `ExtractBezierPatchIDs` | loop invariant over the mixed radix odometer |
| C46, C47 | creation helpers | tensor sums, sizes |
| C48 | quadrature loop | refutation + corrected statement |
| C49 | fit knot vectors | order arithmetic |
| C50 | FFD state machine | invariant over histories of assignments, refutations |
| C51 | knot insertion matrix, clamped | corollary of C12 |
| C52-C54 | property state machine, elevate_degrees | invariants over operation sequences, refutations |
| C55-C57 | interface pairs, orientations, boundary extraction threads | list induction, linear algebra |
| C58 | evaluate / sample / face centers over patches | writes of interleaved threads |
| C59 | gismo export and load of patches | round trip |
| C60 | Bezier patches of a spline | local knots of Cox-de Boor, induction on degree |
| C61 | revolved | circle identity of quadratic rational pieces |
| C62-C64 | line, box, from_bounds, arc | tensor sums, circle identity |
| C65, C66 | least squares, interpolation | normal equations, uniqueness of solutions, Schoenberg-Whitney for the computed knots and parameters |
| C67 | volume | chain rule on Bezier patches, permutation of product rules |
| C68 | exactness of the volume | piecewise polynomials, common refinement of the knots, uniqueness of integrals |
| C69 | sign of the volume | positivity of the rule |
| C70, C71 | determinant splines | zero counting of splines (Rolle), Schoenberg-Whitney for Greville abscissae, tensor products, Laplace expansion in the spline space |
| C72 | mapper.py, one query at a time | calculus of errors small against w - u; derivative of the solution of g J = P; linearity in the basis functions |
| C73-C77 | create methods of the tiles, translated control point by control point | Bernstein coefficients: facets, bounds and signs of Jacobian coefficients by linear arithmetic; perturbation of control points for rates |
| C78 | Bezier extraction matrices | knot insertion of C12 and C51 axis by axis, products of convex matrices, patches of C60 |
| C79-C82 | primitives of create.py | value of one segment as a turn, error bounds by induction over segments; tensor sums |
| C83 | extract.spline | invariant over rounds of insertion; basis functions of a window of knots cut at p + 1 equal knots; the end by polynomials agreeing on an interval |
| C84 | extract.spline with a dictionary | sorted items are those of the axes in order; induction from the last axis on |
| C85 | check.valid_queries | extreme rows of columns; first flagged dimension |
| C86 | check.clamped_knot_vectors | end knots by slices; tensor of unit vectors at corners |
| C87 | extract.edges | rows of the product by recursion; position = block offset + line number * resolution + step |
| C88 | extract.bases | invariant "the view is the identity" through elevation and insertion; knots by permutation of sorted lists; value of coordinate n+1 by the sum over control points |
| C89 | extract.faces, extract.volumes, control meshes | cells by digits; boundaries by C08; squares and edges in coordinates, closedness by cases and linear arithmetic |
| C90 | remove_knots, reduce_degrees | induction over the requests with contracts for the two library calls; exact library calls for curves as witnesses |
| C91 | CATS files | the texts of one patch read back, conversions of C20 / C59, induction over patches; other files: number of patches, closed axes, further variables |
| C92 | Cross3D with InverseCross3D | partner of each facet found at sample parameters, control points of both facets raised to degree two and compared symbolically |

C68 assumes a rule of rational points.  The points of Gauss rules are irrational in general; the assumption used is only
that the rule integrates polynomials of degree 2n-1 exactly and has its points inside the interval.

## Findings

Behaviour of the pinned commit that contradicts the property as stated.  Each is a theorem about the model with a concrete
witness (name in brackets).

Threads
* With `n` items and `t` threads chunks of `ceil(n/t)` can start behind the end: 5 items and 4 threads give a chunk outside the
  list; no items and two or more threads divide by zero (`C01_exactness_refuted`, `C35_threads_refuted`, `C36_overrun_refuted`, `C58_empty_refuted`).
* `nthreads <= 0` loops for ever in strided workers (`C02_nonpositive_diverges`).
* Boundary extraction of a multipatch distributes `nthreads` items instead of the patches: with one thread only patch 0 is
  processed (`C04_complete_refuted`, `C57_refuted`).
* An exception in a worker thread terminates the process (`C35_terminate_refuted`); an empty list of splines reads its first
  element (`C35_empty_refuted`); a request that only compares control mesh resolutions is refused (`C35_resolutions_refuted`).
* `vector<bool>` flags written by several threads lose writes (`C34_race_refuted`).

Reparametrisation and knots
* `flip_axes` of discontinuous splines takes the other one-sided limit; an axis listed twice is flipped back in knots but not
  consistently (`C11_discontinuity_refuted`, `C11_repeated_axis_refuted`).
* The knot insertion matrix indexes outside its rows for unclamped knot vectors, for `p + 2` equal end knots, for new knots within
  tolerance of the bound and for degree 0 (`C12_*_refuted`); it sorts the caller's array in place and reads one element past
  its end (`C13_caller_array_refuted`, `C13_read_past_end_refuted`).
* Knots closer than machine epsilon are merged (`C14_narrow_span_refuted`, `C18_near_requests_refuted`); `unique_knots` can lose the
  upper bound and disagrees with `knot_multiplicities` for unclamped vectors (`C16_upper_bound_refuted`, `C16_unclamped_refuted`);
  Greville abscissae of unclamped vectors leave the domain (`C17_unclamped_outside`).
* Splitting a Bezier at a location 1 given twice passes the check and divides by zero (`C19_end_twice_refuted`).

Proximity
* NaN coordinates pass `Clip` unflagged and `NonZeros` always answers 0 (`C24_nan_refuted`, `C24_non_zeros_refuted`).
* The reported distance/derivatives need not belong to the reported parameter, and the result can be worse than the initial
  guess (`C25_consistent_refuted`, `C25_never_worse_refuted`).

Properties of spline objects
* Rejected degrees and control points stay readable (`C26_*_refuted`); in-place edits of knots after another assignment go to a stale
  parameter space; `multi_index` survives new degrees (`C27_*_refuted`).
* `a[::-1] = v` is not mirrored to the core, slices past the end write outside the core, `a[-m::2]` misses rows, `a[[]] = v` raises
  (`C28_*_refuted`).
* Knots below -1 are rejected, also by `from_bounds`, by `parametric_view` and when files are read (`C30_refuted`, `C40_low_knots_refuted`,
  `C41_low_knots_refuted`, `C63_low_refuted`).
* Assignments to control points or weights of rational splines with cleared `_data` are ignored (`C52_refuted`, `C52_weights_refuted`).
* Reading `weights` of a polynomial spline makes its control points read-only (`C53_refuted`).
* `elevate_degrees` with one axis out of range raises after other axes were elevated; an empty request writes out of bounds (`C54_*_refuted`).

Multipatches
* Three faces of which only two pairs coincide within tolerance give an asymmetric table or miss an interface (`C31_*_refuted`).
* Caches: sub and boundary multipatch, boundary ids and orientations stay those of old data; boundary id 0 returns the neighbour
  of face 0 (`C32_*_refuted`).
* Boundary id 0, masks with 0 and positive ids in `combine_boundaries` overwrite interfaces (`C33_*_refuted`).
* `add_boundaries_from_continuity` reports one boundary too many and indexes out of bounds for open faces on boundary patch 0
  (`C34_count_refuted`, `C34_open_refuted`).
* Orientation entries are never written when no tangents are parallel (`C56_uninitialised_refuted`).

Files
* gismo without labelled boundaries loses boundary ids (`C37_unlabeled_refuted`); mfem `read_solution` permutes the weights of the
  reference (mfem.py 188, `C38_solution_refuted`).
* npz / json / gismo / irit: objects of the generic class `Spline` change class, are lost or unreadable (`C40_generic_refuted`,
  `C41_generic_refuted`, `C59_generic_refuted`); irit reads one digit of the dimension (`C41_dimension_refuted`).

Creation, fitting, integration, deformation
* Microstructures: knots go to wrong axes when an axis needs none, creation raises if no axis needs knots, the tiling is
  overwritten; a single element gets only the closing tile of the lower face; an unknown closing name raises TypeError
  (`C43_*_refuted`, `C44_*_refuted`).
* `arc` with an angle just below pi raises (`C64_gap_refuted`).
* `torus` with one of its two angles takes degrees for radians, and raises for a full section turned by less than pi with the
  default segment number (`C80_degree_refuted`, `C80_part_refuted`).
* `plate` has the radius r / sqrt(2) instead of r (`C81_plate_refuted`); `cone` with a height below 1e-8 is a point
  (`C82_flat_refuted`).
* `integrate.parametric_function` of splines with knot vectors leaves out the sizes of the elements, so inserting a knot changes
  the integral (`C48_refine_refuted`, `C48_constant`).
* `integrate.volume` is negative for splines with reversed orientation if dim = para_dim (`C69_orientation_refuted`).
* `fit.curve` with a repeated point sets up a singular system for a curve through all points (`C65_repeated_refuted`).
* `determinant_spline` divides by zero for a determinant of degree 0, raises for unclamped knot vectors and sets up a singular
  system for splines with jumps (`C70_*_refuted`).
* `fit.curve` ignores the values of a given knot vector, refuses degree 0 through all points, and gives NaN for equal points
  (`C49_*_refuted`); `fit.surface` uses only the weights of the first row and column (`C66_weights_refuted`).
* FFD: replacing the mesh by one of another dimension raises and loses the spline; the mesh cannot be read without spline; the default
  spline of a first mesh is kept for a second; unclamped splines get vertices outside their domain (`C50_*_refuted`).

Tiles of microstructures
* Derivatives of Chi use sine and cosine of the sensitivity instead of the angle; those of CubeVoid and EllipsVoid with respect to
  rot_y use a derivative matrix with 1 in the middle (`C75_*_refuted`).
* CubeVoid and EllipsVoid never check parameters, and Snappy accepts b > 1/2: the tile leaves the cell (`C74_*_refuted`).
* Four of the twelve patches of HollowCube are left-handed; CubeVoid with a void wider than the cell turns patches inside out; Cross3D, Cross3DLinear and Snappy accept parameters at their bounds,
  which give flat patches (`C76_*_refuted`).
* Cross3D and Cross3DLinear close with gaps in the wall for boundary_width above 1/3 (`C77_*_refuted`).

Bezier extraction matrices
* For knot vectors that are not clamped, and for degree 0 with inner knots, `create_new_knot_vector` writes behind the end of
  return_kv (`C78_*_refuted`).  The check in bspline.py 225 only warns.

Parts of splines
* One value of a curve is not extracted, the call raises (`C83_curve_refuted`).
* A query below the bounds in one dimension is reported for another dimension, line 37 compares with the upper bounds
  (`C85_below_refuted`).
* extract.bases with the parametric view (and parametric_view(conform=True)): the weights of the spline replace the weights
  of the view while its control points stay, so for rational splines the view is no longer the identity; weights 1 and 3 put
  the graph of parameter 1/2 above 3/4 (`C88_rational_refuted`).
* The same view always has clamped knot vectors.  For knots 0..5 of degree 2 it shows 1/4 where the basis function is 1/8
  (`C88_unclamped_refuted`).
* extract.faces of a volume: opposite sides have the same corner order, so neighbouring faces run along a common edge in the
  same direction and the normals do not point outwards consistently (`C89_orientation_refuted`, every volume).
- C90: remove_knots accepts a negative axis, checks the knots of the axis counted from the end and calls the library with
  the negative number (`C90_negative_axis_refuted`); reduce_degrees checks each axis when its turn comes, so a request with
  an invalid axis raises after earlier axes were reduced and `_data` keeps the old degrees (`C90_partly_refuted`).
- C91: cats.export raises for the generic class Spline, which has no nurbs (`C91_generic_refuted`); files of splines whose knots
  were moved below -1 cannot be read (`C91_low_knots_refuted`).
- C92: InverseCross3D (inverse_cross_3d.py 987-996) uses min(thickness, center radius) half way along a branch, Cross3D the
  thickness itself; with a branch thicker than the center the two tiles leave a gap or overlap (`C92_thick_refuted`).  A separator
  distance above 1/2 is accepted and puts patches outside the cell (`C74_inverse_cross3d_refuted`).
- C76: with all thicknesses 1/4, center expansion 1 and the default separator distance, corner patches of InverseCross3D and of
  its z_min closing have a negative Jacobian determinant near an edge (`C76_inverse_cross3d_refuted`).
  The tolerance bounds every single removal, not their sum.

Seen while reading, not in Coq: extract.spline accepts para_dim equal to the number of axes, then fails with IndexError; closing a Snappy tile always raises TypeError; HollowOctagonExtrude names its closing method
`closing_tile`, so it is never called; unknown closures raise UnboundLocalError; HollowOctagon refuses thicknesses in (0, 0.01] only
when closing; `RationalBezier * float` drops the weights (bezier.py 61-65); `ioutils.expand_tabs` discards its
result; gismo field export of rational multipatches subscripts a `Multipatch` (gismo.py 141-144); fit with `verbose_output` reads a
non-existent attribute `knot_vector`; `create.torus` mixes units of angles when only `torus_angle` is given in degrees; the lower
bound error of `valid_queries` prints the upper bound; `unique_knots` frees an array with `delete`.

## Mutation tests

`seeded/LOG.jsonl` lists the wrong variants of model definitions that were tried in a scratch copy, with the theorems that stopped
proving.  Survivors led to tighter theorems or are recorded as equivalent variants.
