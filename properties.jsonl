{"id": "C01", "title": "Key/value map is a case-insensitive ordered map", "statement": "After any sequence of set/unset/add-line operations on a KeyValueMap, getString(key) returns the value most recently set under that key (compared case-insensitively) or the default if it was never set or was removed since; operations on one key never change the value of another key, and the order in which keys were first inserted is preserved in the dump.", "quantifier": "every sequence of operations, every key and value string", "why_tests_cant": "There are infinitely many operation histories and key strings; a test fixes a handful of keys.", "anchors": ["src/utils_config.cpp: KeyValueMap::add, set, unset, getString, contains, dumpLines", "src/utils.cpp: stringsEqual"]}
{"id": "C02", "title": "INI configuration files round-trip", "statement": "Writing a configuration (sections with key=value entries) to an INI file and reading the file again yields the same sections, in the same order, with the same keys and values, whenever section names, keys and values are well formed (non-empty section names without ']' , keys without '=' or leading comment characters or surrounding blanks, single-line values without surrounding blanks); comments and blank lines are kept verbatim.", "quantifier": "every list of sections and every list of well-formed entries, of any length", "why_tests_cant": "The parser works line by line on arbitrary strings; the interplay of trimming, comment and section detection with arbitrary content cannot be covered by examples.", "anchors": ["src/utils_config.cpp: ConfigFile::ConfigFile, ~ConfigFile, findSection", "src/utils_config.cpp: KeyValueMap::add(const char*), dumpLines"]}
{"id": "C03", "title": "String tokenizer loses nothing and invents nothing", "statement": "splitString(src, delims) returns exactly the maximal non-empty runs of non-delimiter characters of src, in order: no token is empty or contains a delimiter, and the concatenation of tokens equals src with the delimiters removed.", "quantifier": "every source string and every delimiter set", "why_tests_cant": "Universal over strings; off-by-one errors only show for specific placements of delimiters.", "anchors": ["src/utils.cpp: splitString"]}
{"id": "C04", "title": "Boolean/integer option parsing", "statement": "toBool accepts exactly the documented spellings (first non-blank character in 0nNfF / 1yYtT, empty means false) and rejects every other string; toInt never overflows: it truncates towards zero and saturates at the limits of int, and rejects strings that are not finite numbers.", "quantifier": "every string; every finite parsed value", "why_tests_cant": "The accepted language is infinite and overflow occurs only for huge magnitudes.", "anchors": ["src/utils.cpp: toBool, toInt"]}
{"id": "C05", "title": "Binary search finds the enclosing bin", "statement": "binSearch(x, arr) on any non-decreasing array returns -1 if x<arr[0], the array size (minus one) convention if x is beyond the last element, and otherwise the index of the bin with arr[i] <= x < arr[i+1] (the last bin being closed); it never reads outside the array and always terminates, whatever the initial guess.", "quantifier": "every sorted array of any length, every query value, every initial guess", "why_tests_cant": "The interpolation-guess + bisection loop has data-dependent control flow over arrays of arbitrary size.", "anchors": ["src/math_core.cpp: binSearch"]}
{"id": "C06", "title": "Band matrix storage represents the right elements", "statement": "For a band matrix of any size and bandwidth, the size() reported, the flat element enumeration elem(index,row,col), random access at(row,col) and values() agree: each in-band element is enumerated exactly once with its own row and column, and out-of-band elements are zero.", "quantifier": "every size and bandwidth, every index", "why_tests_cant": "Index arithmetic at the clipped corners depends on the relation of size and bandwidth; tests use a few shapes.", "anchors": ["src/math_linalg.cpp: BandMatrix<NumT>::size, elem, at, values"]}
{"id": "C07", "title": "Band linear solver solves the system", "statement": "solveBand(A, rhs) returns x such that A x = rhs exactly (in exact arithmetic) for every band matrix whose elimination pivots do not vanish, in particular for every strictly diagonally dominant matrix, both in the tridiagonal fast path and in the general band path.", "quantifier": "every size, bandwidth, matrix and right-hand side", "why_tests_cant": "Universal over dimension and real data.", "anchors": ["src/math_linalg.cpp: solveBand"]}
{"id": "C08", "title": "Matrix-vector products agree with the dense definition", "statement": "The matrix-vector product of a band matrix (plain and transposed) accumulates exactly alpha*A*x + beta*y as defined by the element accessor.", "quantifier": "every size, bandwidth, matrix, vectors and coefficients", "why_tests_cant": "Loop bounds clipped at both corners have to be right for all shapes.", "anchors": ["src/math_linalg.cpp: blas_dgemv(BandMatrix)"]}
{"id": "C09", "title": "Sparse matrix enumeration and conversions preserve the matrix", "statement": "Enumerating a compressed-column sparse matrix by flat index yields every stored element with its true row and column, even with empty columns, so that converting between sparse and dense forms preserves every element.", "quantifier": "every column-pointer array and row-index array", "why_tests_cant": "Empty columns create runs of equal pointers, a case-dependent behaviour of the search.", "anchors": ["src/math_linalg.cpp: SparseMatrix<NumT>::elem, values", "src/math_core.cpp: binSearch"]}
{"id": "C10", "title": "Shared pointers free each object exactly once", "statement": "Under any sequence of creations, copies, assignments (including self-assignment), resets, swaps and destructions of shared pointers, an object is disposed exactly once, precisely when its last owner disappears, and never while some pointer still refers to it.", "quantifier": "every finite sequence of operations on any number of pointer variables and objects", "why_tests_cant": "Quantifies over unbounded operation histories.", "anchors": ["src/shared_ptr.h: shared_ptr, shared_count"]}
{"id": "C11", "title": "Keyboard-interrupt handlers are properly nested", "statement": "For any properly nested use of CtrlBreakHandler objects, the interrupt flag is cleared only when the outermost one is created, an interrupt raised at any moment while some handler is alive is visible to every live handler until the outermost is destroyed, and destroying the outermost handler restores exactly the signal handler that was installed before.", "quantifier": "every nesting history with interrupts at arbitrary points", "why_tests_cant": "The moment at which the signal arrives is arbitrary.", "anchors": ["src/utils.cpp: CtrlBreakHandler"]}
{"id": "C12", "title": "Random number streams have maximal period and do not overlap", "statement": "From any non-zero state the generator's state sequence has period exactly 2^128-1; the zero state is never reached; the per-thread jump advances the stream by exactly 2^64 draws, so streams of different threads produced by successive jumps do not overlap for fewer than 2^64 draws each.", "quantifier": "every non-zero 128-bit seed state, every number of threads and draws below the bound", "why_tests_cant": "2^128 states cannot be enumerated.", "anchors": ["src/math_random.cpp: xoroshiro128plus_next, RandGenStorage::randomize, JUMP"]}
{"id": "C13", "title": "Each thread owns its private random state", "statement": "Drawing random numbers in one thread neither reads nor modifies the generator state used by another thread.", "quantifier": "every pair of distinct thread indices and every number of threads", "why_tests_cant": "Data races and shared words only manifest under particular schedules.", "anchors": ["src/math_random.cpp: random, RandGenStorage"]}
{"id": "C14", "title": "Uniform random numbers lie in the documented range", "statement": "random() returns a number in the half-open interval [0,1) for every internal state.", "quantifier": "all 2^128 internal states", "why_tests_cant": "The offending states have probability 2^-53 or less; random testing does not meet them.", "anchors": ["src/math_random.cpp: random"]}
{"id": "C15", "title": "Random permutations are permutations", "statement": "getRandomPermutation(count) fills the output with each of 0..count-1 exactly once, for any values returned by the random generator, including the endpoint value 1.", "quantifier": "every count and every sequence of random values in [0,1]", "why_tests_cant": "Depends on all possible random sequences.", "anchors": ["src/math_random.cpp: getRandomPermutation"]}
{"id": "C16", "title": "Quasi-random (Halton) numbers are the radical inverse", "statement": "quasiRandomHalton(ind, base) equals the base-`base` digit reversal of the index as a fraction, lies in [0,1), and different indices give different values.", "quantifier": "every index and every base >= 2", "why_tests_cant": "Universal over indices and bases.", "anchors": ["src/math_random.cpp: quasiRandomHalton"]}
{"id": "C17", "title": "Random vectors are geometrically exact", "statement": "getRandomUnitVector has unit norm; getRandomPerpendicularVector is a unit vector orthogonal to the input and returns the input's norm; getRandomRotationMatrix is orthogonal with determinant one, for all values of the underlying random numbers.", "quantifier": "every value of the random numbers and every input vector", "why_tests_cant": "Real-number identities that must hold for all values.", "anchors": ["src/math_random.cpp: getRandomUnitVector, getRandomPerpendicularVector, getRandomRotationMatrix"]}
{"id": "C18", "title": "The adaptive sampler's cell tree always partitions its points", "statement": "In the multidimensional rejection sampler, after any sequence of cell splittings and point additions, each stored sample point belongs to exactly one leaf cell and lies inside that cell's boundaries, and the leaf cells tile the integration domain.", "quantifier": "every sequence of refinements, every dimension, every set of sample points", "why_tests_cant": "Linked-list surgery over arbitrary refinement histories.", "anchors": ["src/math_sample.cpp: Sampler::splitCell, addPointsToCell, getCellBoundaries"]}
{"id": "C19", "title": "The sampler delivers exactly the requested number of samples", "statement": "drawSamples outputs exactly the requested number of samples drawn from the stored points, provided no stored point carries more weight than one output sample; with each point output at most once.", "quantifier": "every function, region, number of samples, sequence of quasi-random numbers, random permutation and execution order of the parallel loops", "why_tests_cant": "Accumulation logic over arbitrary weight lists.", "anchors": ["src/math_sample.cpp: Sampler::drawSamples"]}
{"id": "C20", "title": "Text snapshots round-trip", "statement": "Writing particles to a text snapshot and reading it back returns the same number of particles in the same order with the same fields (as printed); lines that are comments or have too few fields never produce particles.", "quantifier": "every list of particles and every header", "why_tests_cant": "Universal over file contents.", "anchors": ["src/particles_io.cpp: readSnapshotText, writeSnapshotText"]}
{"id": "C21", "title": "NEMO snapshots written are well-formed and read back unchanged", "statement": "The binary NEMO structure emitted for any list of particles parses back (by the tag/type/shape grammar used by the bundled reader) into the same time, masses, positions and velocities, with balanced set/tes nesting.", "quantifier": "every particle list, time and header", "why_tests_cant": "Byte-level grammar over arbitrary data.", "anchors": ["src/particles_io.cpp: NemoSnapshotWriter", "py/nemofile.py"]}
{"id": "C22", "title": "Unit conversions are consistent", "statement": "For any choice of internal length and time units, every to_X/from_X pair is reciprocal, the gravitational constant is unity in internal units, and derived units (velocity, mass, potential, ...) follow dimensional analysis, so converting external->internal->external is the identity.", "quantifier": "every positive length/time/velocity/mass unit", "why_tests_cant": "Real-number identities over continuous parameters.", "anchors": ["src/units.h: InternalUnits, ExternalUnits"]}
{"id": "C23", "title": "Coordinate transformations are mutually inverse and preserve invariants", "statement": "Converting positions/velocities among Cartesian, cylindrical and spherical systems and back returns the original point, preserves radius, speed, and the angular momentum, including the degenerate points on the axis and at the origin as documented.", "quantifier": "every point and velocity", "why_tests_cant": "Universal over reals, including degenerate loci.", "anchors": ["src/coord.cpp: toPos, toPosVel, Ltotal, Lz"]}
{"id": "C24", "title": "Gradients and Hessians transform by the chain rule", "statement": "The coordinate derivative tables are the true first and second partial derivatives of the coordinate maps, and toGrad/toHess of any function's derivatives are the derivatives of the composed function.", "quantifier": "every point away from coordinate singularities, every smooth function", "why_tests_cant": "Universal over reals and functions.", "anchors": ["src/coord.cpp: toPosDeriv, toGrad, toHess"]}
{"id": "C25", "title": "Composite models are the sum of their components", "statement": "A composite density/potential evaluates to the sum of its components (value, gradient and Hessian) at every point and time, in batch or pointwise evaluation alike, and declares only symmetries possessed by all components.", "quantifier": "every list of components, point and time", "why_tests_cant": "Universal over component lists.", "anchors": ["src/potential_composite.cpp: CompositeDensity, Composite, evalComponents"]}
{"id": "C26", "title": "Time-dependent (Evolving) potentials interpolate correctly", "statement": "An Evolving potential clamps outside the time range, reproduces each snapshot exactly at its time stamp, is a convex combination of the two enclosing snapshots in between (or the nearest one), and rejects unsorted time lists.", "quantifier": "every sorted list of time stamps and every time", "why_tests_cant": "Universal over times and arrays.", "anchors": ["src/potential_composite.cpp: searchInterp, Evolving"]}
{"id": "C27", "title": "Potential modifiers transform derivatives consistently", "statement": "Shifted/Tilted/Rotating/Scaled wrappers return the gradient and Hessian that are the derivatives of the returned value, and densities consistent with Poisson scaling.", "quantifier": "every underlying potential, position, time and modifier parameters", "why_tests_cant": "Universal over functions and parameters.", "anchors": ["src/potential_composite.cpp: Scaled, Rotating, Shifted, Tilted"]}
{"id": "C28", "title": "Trajectories are recorded at regular intervals irrespective of internal timesteps", "statement": "When an orbit is recorded with sampling interval dt, the output contains exactly the points at start + i*dt (in the direction of integration) covering the integration interval with no gaps, duplicates or reordering, for any sequence of internal ODE timesteps; with zero interval every timestep is stored.", "quantifier": "every sequence of timestep boundaries, forward or backward", "why_tests_cant": "Step sizes are chosen adaptively; all splittings must be covered.", "anchors": ["src/orbit.cpp: RuntimeTrajectory::processTimestep, run"]}
{"id": "C29", "title": "Orbit equations of motion are the same in every coordinate system", "statement": "The right-hand sides used by the orbit integrator in Cartesian (also rotating), cylindrical and spherical coordinates are those of Newton's equations for the same potential.", "quantifier": "every potential, phase-space point and pattern speed", "why_tests_cant": "Universal over functions and points, including crossing the axis.", "anchors": ["src/orbit.cpp: OrbitIntegrator<...>::eval, getSolNative, init"]}
{"id": "C30", "title": "Spherical-harmonic index bookkeeping matches the declared symmetry", "statement": "Coefficient indices (l,m)<->c are a bijection; the set of non-trivial coefficients implied by a symmetry is exactly that symmetry's selection rule, and the symmetry inferred from a coefficient array keeps every non-zero coefficient.", "quantifier": "every lmax, mmax, symmetry and coefficient array", "why_tests_cant": "Universal over sizes; integer square root indexing.", "anchors": ["src/math_sphharm.cpp: SphHarmIndices, getIndicesFromCoefs"]}
{"id": "C31", "title": "Trigonometric multiples recurrence", "statement": "trigMultiAngle fills the output with exactly cos(k phi) and sin(k phi), k=1..m.", "quantifier": "every angle and every m", "why_tests_cant": "Universal over m and phi.", "anchors": ["src/math_sphharm.cpp: trigMultiAngle"]}
{"id": "C32", "title": "Closed-form polynomial solvers return exactly the real roots", "statement": "solveLinear and solveQuadratic return all real roots in increasing order and nothing else, with the reported count.", "quantifier": "all coefficient values", "why_tests_cant": "Universal over reals including degenerate coefficients.", "anchors": ["src/math_core.cpp: solveLinear, solveQuadratic, solveCubic"]}
{"id": "C33", "title": "Integer power is exact repeated multiplication", "statement": "pow(x,n) for integer n equals x^n (or 1/x^|n| for negative n), terminates, and has no undefined behaviour for all n.", "quantifier": "every base and every 32-bit exponent", "why_tests_cant": "2^32 exponents times all bases.", "anchors": ["src/math_core.cpp: pow(double,int)"]}
{"id": "C34", "title": "Root finder result is bracketed", "statement": "findRoot returns a point inside the requested interval, where the function changes sign within the final bracket, or reports failure if the endpoints do not bracket a root; it evaluates the function at a bounded number of points, all within the interval.", "quantifier": "every function (even discontinuous) and every interval", "why_tests_cant": "Universal over functions.", "anchors": ["src/math_core.cpp: findRoot, findRootHybrid, findRootHermite"]}
{"id": "C35", "title": "Streaming averages equal batch averages", "statement": "Averager's mean and dispersion after any sequence of values equal the arithmetic mean and variance of that sequence.", "quantifier": "every finite sequence of values", "why_tests_cant": "Universal over sequences.", "anchors": ["src/math_core.h: Averager"]}
{"id": "C36", "title": "Angle wrapping/unwrapping", "statement": "wrapAngle returns the equivalent angle in [0,2pi); unwrapAngle(x,prev) returns the angle equivalent to x closest to prev, so unwrapped sequences have no jumps exceeding pi.", "quantifier": "every finite angle and every sequence", "why_tests_cant": "Universal over reals.", "anchors": ["src/math_core.cpp: wrapAngle, unwrapAngle"]}
{"id": "C37", "title": "Scaling transformations of coordinates are inverse to each other", "statement": "scale and unscale of each coordinate scaling are mutually inverse bijections between the documented ranges, monotonic, and the returned derivative is the true one.", "quantifier": "every point in the range and every parameter", "why_tests_cant": "Universal over reals.", "anchors": ["src/math_core.cpp: scale, unscale", "src/math_core.h: ScalingInf, ScalingSemiInf, ScalingDoubleInf, ScalingLin, ScalingCub, ScalingQui"]}
{"id": "C38", "title": "Euler-angle orientations are rotations", "statement": "Orientation built from any Euler angles is an orthogonal matrix with determinant one, from/to rotated transformations are mutually inverse and preserve lengths, and toEulerAngles recovers angles generating the same matrix.", "quantifier": "all angles and vectors", "why_tests_cant": "Universal over reals including the degenerate (gimbal-lock) case.", "anchors": ["src/coord.cpp: Orientation::Orientation, toEulerAngles", "src/coord.h: Orientation"]}
{"id": "C39", "title": "Interpolating splines reproduce the nodes and their derivatives are consistent", "statement": "Linear/cubic/quintic interpolation passes through all input nodes, the value, first and second derivative outputs are mutually consistent, adjacent segments match, and evaluation outside the grid follows the documented extrapolation.", "quantifier": "every grid and every set of nodal values", "why_tests_cant": "Universal over grids and reals.", "anchors": ["src/math_spline.cpp: LinearInterpolator, CubicSpline, QuinticSpline, constructCubicSpline, constructQuinticSpline, evalCubicSplines, evalQuinticSplines"]}
{"id": "C40", "title": "Hashing distinguishes inputs differing in one word", "statement": "The hash function is deterministic and two equal-length buffers that differ in exactly one 8-byte word always have different hashes.", "quantifier": "every buffer, every position", "why_tests_cant": "2^64 values per word.", "anchors": ["src/math_random.cpp: hash"]}
{"id": "C41", "title": "Derivatives reported by composite function objects are the true derivatives", "statement": "FncProduct, FncShifted, Monomial, Gaussian and LogLogScaledFnc return the value and exactly the first and second derivatives of that value, whenever their constituents do.", "quantifier": "every constituent function, every argument in the domain", "why_tests_cant": "Universal over functions and reals.", "anchors": ["src/math_core.cpp: FncProduct::evalDeriv, LogLogScaledFnc::evalDeriv, Monomial::evalDeriv, Gaussian::evalDeriv", "src/math_core.h: FncShifted"]}
{"id": "C42", "title": "Analytic integrals are the integrals", "statement": "Monomial::integrate and Gaussian::integrate return the definite integral of the function times x^n over the given interval.", "quantifier": "every interval inside the domain, every power", "why_tests_cant": "Universal over reals.", "anchors": ["src/math_core.cpp: Monomial::integrate, Gaussian::integrate"]}
{"id": "C43", "title": "Local interpolation and finite differences are exact for polynomials of the matching degree", "statement": "linearInterp and hermiteInterp pass through the nodes with the given slopes and reproduce linear/cubic functions; hermiteDerivs recovers the derivatives of any quintic polynomial; the finite-difference estimates of PointNeighborhood are exact for quadratics/cubics; dxToNearestRoot solves the local quadratic and picks the nearer root, dxBetweenRoots is the distance between its roots.", "quantifier": "every grid (uniform or not) and every polynomial", "why_tests_cant": "Universal over reals.", "anchors": ["src/math_core.h: linearInterp, hermiteInterp", "src/math_core.cpp: hermiteDerivs, PointNeighborhood"]}
{"id": "C44", "title": "Density derived from a potential obeys the Poisson equation", "statement": "When a potential class does not supply its own density, the density returned in Cartesian, cylindrical or spherical coordinates is the Laplacian of the potential divided by 4 pi (or zero when the terms cancel to rounding level), including on the symmetry axis and at the centre where the coordinate expressions are singular.", "quantifier": "every twice-differentiable potential and every point", "why_tests_cant": "Universal over functions and points, singular coordinates included.", "anchors": ["src/potential_base.cpp: BasePotential::densityCar, densityCyl, densitySph"]}
{"id": "C45", "title": "Spherical-harmonic functions and their derivatives are exact", "statement": "sphHarmArray returns, for every order l>=m, the normalised associated Legendre function (Rodrigues formula with Condon-Shortley phase, orthonormal on the sphere) and its first two derivatives with respect to theta, also exactly at the poles; the hard-coded tables of constants agree with the closed formulas; m>lmax is refused.", "quantifier": "every lmax, m, theta in [0,pi]", "why_tests_cant": "Universal over degree and angle, with removable singularities at the poles.", "anchors": ["src/math_sphharm.cpp: sphHarmArray, legendrePmm"]}
{"id": "C46", "title": "Fourier transform is lossless for band-limited functions", "statement": "FourierTransformForward applied to samples of any trigonometric polynomial of order mmax yields exactly its coefficients (= integrals over the circle); for even functions the half-circle version does the same.", "quantifier": "every mmax and every trigonometric polynomial", "why_tests_cant": "Universal over sizes and real coefficients.", "anchors": ["src/math_sphharm.cpp: FourierTransformForward", "src/math_sphharm.h: FourierTransformForward::phi"]}
{"id": "C47", "title": "Spherical-harmonic transform round trip", "statement": "Sampling the function represented by a set of coefficients (inverse transform) on the grid requested by the forward transform and transforming it returns the same coefficients and zeros elsewhere, for every symmetry type; the represented function has all declared symmetries.", "quantifier": "every lmax, mmax, symmetry, coefficient array", "why_tests_cant": "Universal over sizes, symmetries (with reduced grids) and coefficients.", "anchors": ["src/math_sphharm.cpp: SphHarmTransformForward, sphHarmTransformInverse"]}
{"id": "C48", "title": "Numbers printed as strings are parsed back", "statement": "Converting any finite double to a string with toString and back with toDouble succeeds and changes it by at most half a unit of the last printed digit; printing the result again gives the same string; with 17 or more digits the double is recovered exactly.", "quantifier": "every finite double, every precision that fits the internal buffer", "why_tests_cant": "Universal over 2^64 values, three printing styles and all precisions.", "anchors": ["src/utils.cpp: toString(double), toDouble"]}
{"id": "C49", "title": "The slope-limited cubic spline preserves monotonicity", "statement": "A cubic spline constructed with the regularize option from non-decreasing (non-increasing) values is non-decreasing (non-increasing) over the whole grid, strictly so where the data are strictly monotone, and still interpolates the data.", "quantifier": "every strictly increasing grid of any length, every monotone data set, every combination of natural and clamped ends", "why_tests_cant": "Universal over grids and data; an unmonotone overshoot can occur in a tiny part of a single segment for special data ratios.", "anchors": ["src/math_spline.cpp: regularizeSpline, constructCubicSpline, CubicSpline"]}
{"id": "C50", "title": "Analytic potentials compute the documented formulas and consistent derivatives", "statement": "Plummer, Isochrone, NFW, Miyamoto-Nagai, Logarithmic and Harmonic potentials return the documented potential, its exact gradient and Hessian in Cartesian, cylindrical and spherical coordinates, a density that satisfies the Poisson equation, masses that agree with the density and with the far field, and the symmetry that they declare; NFW stays within a stated error of the profile in the centre where a series is used.", "quantifier": "every parameter set, coordinate system, point (including the centre where the potential is smooth)", "why_tests_cant": "Universal over real parameters and positions; tests compare derivatives with finite differences at a few points.", "anchors": ["src/potential_analytic.h, src/potential_analytic.cpp: Plummer, Isochrone, NFW, MiyamotoNagai, Logarithmic, Harmonic"]}
{"id": "C51", "title": "Kepler solver and binary black hole", "statement": "solveKepler terminates, and what it returns satisfies Kepler's equation for the reduced phase to 2e-15; the two black holes of keplerOrbit obey Newton's two-body equations with the given total mass, mass ratio, semimajor axis, eccentricity and phase, with the centre of mass at rest; KeplerBinary returns the potential of these point masses, its gradient and Hessian, its true symmetry and enclosed mass.", "quantifier": "every eccentricity below 1, phase, time, binary parameters and position away from the black holes", "why_tests_cant": "An iterative solver with a do-while loop over real inputs; differential identities that must hold at all times and positions.", "anchors": ["src/math_specfunc.cpp: solveKepler", "src/potential_analytic.cpp: KeplerBinaryParams, KeplerBinary"]}
{"id": "C52", "title": "Integrals and convolutions of interpolators", "statement": "integrate(x1,x2,n) of a linear, cubic or quintic interpolator returns the integral of the curve times x^n over the part of the interval inside the grid (to within 2.5e-16 of the size of the integrand); integrate(x1,x2,f) and convolve(x,f) return the integral of the curve times f (or f reflected and shifted) up to segments contributing less than machine epsilon.", "quantifier": "every interpolator obtained from any constructor, every grid size, every pair of limits in any order and anywhere relative to the grid, every power and every integrable f", "why_tests_cant": "Universal over grids, values and limits: the error depends on how limits fall relative to the nodes.", "anchors": ["src/math_spline.cpp: integratePiecewise, vandermonde, LinearInterpolator::integrate, CubicSpline::integrate, QuinticSpline::integrate, convolve"]}
{"id": "C53", "title": "Gauss-Legendre quadrature is exact for polynomials", "statement": "integrateGL with N=1..40 points, in its scalar and vector forms, integrates every polynomial of degree up to 2N-1 over every interval up to a rounding error of the tabulated constants, evaluates the function only inside the interval, and preserves positivity and bounds; prepareIntegrationTableGL fills the arrays with such a rule.", "quantifier": "every interval, polynomial, order, and every function for positivity and bounds", "why_tests_cant": "The tables hold hundreds of constants, a wrong digit in one of them spoils only some polynomials; and the claim ranges over all intervals and functions.", "anchors": ["src/math_glquadrature.h: GLPOINTS, GLWEIGHTS", "src/math_core.cpp: integrateGL, prepareIntegrationTableGL"]}
{"id": "C54", "title": "B-splines: partition of unity, derivatives, integrals", "statement": "The B-spline basis functions of any degree returned by nonzeroComponents are those of the Cox-de Boor definition: non-negative, zero outside N+2 adjacent nodes, summing up to one; a B-spline curve is their combination with the given amplitudes, stays between the smallest and the largest amplitude, has N-1 continuous derivatives, and the reported derivatives are the true ones; deriv and antideriv return the amplitudes of the derivative and of the integral; integrate returns the integral times x^n; eval returns the values of all basis functions.", "quantifier": "every degree, every strictly increasing grid with two or more nodes, every amplitude array, every point inside or outside the grid, every pair of limits", "why_tests_cant": "Universal over grids, amplitudes and positions; repeated end nodes and points at the nodes are special cases that tests touch only on a few grids.", "anchors": ["src/math_spline.cpp: linInt, denom, bsplineValues, bsplineDerivs, integrateBspline, BsplineWrapper, BsplineInterpolator1d"]}
{"id": "C55", "title": "Roots and extrema of interpolators", "statement": "roots(y,x1,x2) of a linear, cubic or B-spline curve returns points of the interval in increasing order at which the curve equals y, and every such point is among them up to ten rounding errors (of a whole segment where the curve equals y, only its left end); extrema(x1,x2) of a cubic, B-spline or linear curve returns the left end of the interval and all points where the curve turns: it is monotone in between, all strict local extrema are in the list, and the curve on the interval never exceeds the range of its values at these points.", "quantifier": "every interpolator obtained from any constructor, every grid size, every value y, every pair of limits in any order, specified or not, with a nonempty overlap with the grid", "why_tests_cant": "Universal over grids, values and limits: roots at nodes, flat segments and limits coinciding with nodes are special cases that tests touch only on a few grids.", "anchors": ["src/math_spline.cpp: isLarger, findRoots, RootsCubicSpline, RootsDerivQuinticSpline, RootsBspline, findExtremaBspline, LinearInterpolator::roots, CubicSpline::roots, BsplineWrapper::roots, extrema"]}
{"id": "C56", "title": "Generated grids span the interval and are strictly increasing", "statement": "createUniformGrid and createExpGrid return the requested number of nodes, with equal steps or equal ratios, from xmin to xmax exactly; createNonuniformGrid returns a strictly increasing grid with steps growing by a constant factor, with the first nonzero node at xmin and the last at xmax (optionally preceded by zero); mirrorGrid and createSymmetricGrid return strictly increasing grids symmetric about zero; invalid parameters are rejected.", "quantifier": "every number of nodes, every xmin, xmax", "why_tests_cant": "Universal over the number of nodes and the ratio xmax/xmin; the grid parameter comes from an iterative root finder.", "anchors": ["src/math_spline.cpp: createUniformGrid, createExpGrid, createNonuniformGrid, GridSpacingFinder, mirrorGrid, createSymmetricGrid"]}
{"id": "C57", "title": "Polygons: area, inclusion, clipping, and integrals of B-splines", "statement": "polygonArea returns the signed area; isPointInsidePolygon returns true exactly if the winding number of the polygon around the point is nonzero; clipPolygonByRectangle returns a polygon inside the rectangle which covers the same points of the rectangle as the original polygon, with the same multiplicity; computeBsplineIntegralsOverPolygon adds to the output array the integrals of all tensor-product basis functions over the polygon, whichever its orientation, reports whether it extends beyond the grid, and does not touch other elements.", "quantifier": "every polygon (any number of vertices, convex or not, self-intersecting or not, either orientation), every rectangle, every point, every pair of grids, spline degrees 0..3", "why_tests_cant": "Universal over polygons and grids: vertices or edges coinciding with grid lines, re-entrant shapes and degenerate pieces after clipping are special cases.", "anchors": ["src/math_geometry.cpp: polygonArea, isPointInsidePolygon, clipPolygonByRectangle, integrateOverRectangle, integrateOverTriangle, integrateOverPolygon, computeBsplineIntegralsOverPolygon"]}
{"id": "C58", "title": "Action-angle variables of the isochrone potential", "statement": "evalIsochrone returns the actions of any bound point (Jphi is the z-component of angular momentum, Jz+|Jphi| its magnitude, and the Hamiltonian of these actions equals the energy), frequencies equal to the derivatives of the Hamiltonian, and angles; mapIsochrone is its inverse in both directions; the points mapped from angles that grow linearly with time at these frequencies move according to Newton's equations in the isochrone potential; unbound points and negative actions give NaN.", "quantifier": "every mass and radius, every bound point, every set of actions and angles, all times", "why_tests_cant": "Universal over orbits and phases: apocentre, planar, retrograde, circular and polar orbits and angles beyond one turn are special cases; that the curve solves the equations of motion is a statement about derivatives at every moment.", "anchors": ["src/actions_isochrone.cpp: evalIsochrone, mapIsochrone"]}
{"id": "C59", "title": "ODE solvers: step accounting, accuracy orders and dense output", "statement": "For the Runge-Kutta solver: after init the solution at the current time is the given state and the first timestep is between 1e-12 and 1e12; doStep(dt) with dt<>0 takes exactly this step; doStep(0) goes in the direction of the sign of zero by at most getTimeStep, accepts the step if the error estimate is within tolerance (or did not improve in four successive reductions), always ends when the right-hand side is bounded near the current point, and predicts the next step between 0.9 and 6 times the current one; the step is of order 8 and the interpolation has an error of order h^7 for every linear system and every polynomial quadrature; getSol joins the old and new solutions with the derivatives prescribed by the ODE and an index out of range is an error. For the Hermite solver: the same accounting, the interpolated velocity is the derivative of the interpolated position, and the interpolation joins successive steps.", "quantifier": "every ODE system, dimension, state, tolerance, timestep of either sign, and every moment inside a step; every linear system and polynomial for the orders", "why_tests_cant": "Universal over right-hand sides and histories of rejected steps: the orders are statements about all powers of the timestep, and the loop of step reductions depends on an arbitrary sequence of error estimates.", "anchors": ["src/math_ode.cpp: initTimeStep, OdeSolverDOP853, OdeSolverHermite", "src/math_ode.h: BaseOdeSolver"]}
{"id": "C60", "title": "Solvers of linear second-order systems: collocation, superposition and dense output", "statement": "For the Gauss-Legendre solvers of x''=A(t)x+B(t)x' with 3 and 4 nodes: the constructor rejects an empty set of vectors or a wrong size; after init the solution at the current time is the given state; doStep advances the time by dt; the interpolated solution is continuous with the previous step, its velocity is the derivative of its position; for a sufficiently short timestep it converges, geometrically in the number of iterations, to the unique polynomial which satisfies the equation at the Gauss-Legendre nodes; polynomial solutions of degree up to 4 (5) are followed exactly through any sequence of timesteps; the solution is a linear function of the initial conditions and each vector evolves independently of all others; an index out of range is an error.", "quantifier": "every linear system (any matrices as functions of time), any number of vectors, any sequence of nonzero timesteps of either sign, every moment inside a step", "why_tests_cant": "Universal over matrices, states and histories: the predictor depends on the previous step, the number of iterations is fixed, and the collocation solution is defined implicitly.", "anchors": ["src/math_ode.cpp: Ode2SolverGL3, Ode2SolverGL4", "src/math_ode.h: IOde2System, BaseOde2Solver"]}
{"id": "C61", "title": "Two-dimensional interpolators: definition region, interpolation, true derivatives, smoothness and symmetry", "statement": "For LinearInterpolator2d, CubicSpline2d and QuinticSpline2d: the constructor rejects a grid with fewer than two or non-increasing nodes or matrices of a wrong size, and accepts everything else; the value is NaN outside the closed rectangle of the grid and a number inside; the interpolator passes through all given values; every derivative it reports is the true derivative of the function it returns; on the grid lines the cubic spline is the one-dimensional spline of the row or column; without regularization it is twice continuously differentiable, attains the prescribed derivative along the whole side or has a zero second normal derivative there, is a linear function of the data, does not depend on the order of the two coordinates, and reproduces bilinear functions.", "quantifier": "every pair of grids, every table of values and derivatives, every boundary condition, with and without regularization, every point of the plane including grid lines and the border", "why_tests_cant": "Universal over grids, data and points: smoothness across every grid line is an identity between solutions of several coupled tridiagonal systems of arbitrary size.", "anchors": ["src/math_spline.cpp: BaseInterpolator2d, LinearInterpolator2d, CubicSpline2d, QuinticSpline2d, checkSizes2d", "src/math_spline.h: BaseInterpolator2d"]}
{"id": "C62", "title": "Disk density profiles and the analytic part of the disk potential", "statement": "A disk is constructed exactly if the scale radius and Sersic index are positive and the inner cutoff radius is not negative; the density is the product of the documented surface density Sigma(R) (exponential or Sersic with hole and ripples) and vertical profile h(z) (exponential or sech^2) with unit total mass; the radial and vertical functions report true derivatives; DiskAnsatz returns the potential 4 pi Sigma(r) H(z) with H''=h, its true gradient and second derivatives, and a density satisfying the Poisson equation, so that disk density minus ansatz density is the documented residual; mass() is the integral of the surface density; all results are finite wherever the potential is differentiable.", "quantifier": "all disk parameters, all positions (R,z,phi) in the disk plane and off it, thin, exponential and isothermal disks, and any user-supplied radial and vertical functions", "why_tests_cant": "Universal over parameters and positions: derivatives, the Poisson equation and integrals to infinity are statements about functions, and the special cases (series near z=0, the centre) have to match the generic formulas.", "anchors": ["src/potential_disk.cpp: DiskDensityRadialExp, DiskDensityRadialRichExp, DiskDensityVerticalExp, DiskDensityVerticalIsothermal, DiskDensityVerticalThin, createRadialDiskFnc, createVerticalDiskFnc, DiskParam::mass, DiskDensity, DiskAnsatz", "src/potential_disk.h: DiskParam"]}
{"id": "C63", "title": "Action-based distribution functions", "statement": "The Exponential, QuasiIsothermal and DoublePowerLaw distribution functions are constructed exactly for the documented parameter ranges; for physical actions they return the documented non-negative function f(J), and the derivatives by actions they report are its gradient wherever Jphi is nonzero; the average of f(Jphi) and f(-Jphi) of a double power law does not depend on rotation; with a central core f(J) has a finite positive value in the limit of zero actions, which should be its value there.", "quantifier": "all parameters accepted by the constructors (q-coefficients zero or above 1e-7), all actions with Jr,Jz>=0, and every interpolator of positive epicyclic frequencies with consistent derivatives", "why_tests_cant": "Gradients, positivity and limits are statements about all actions and parameters; the branches at Jphi=0, J=0 and Jphi0=0 are single points that random tests do not hit.", "anchors": ["src/df_disk.cpp: QuasiIsothermal, Exponential, evalDeriv", "src/df_halo.cpp: DoublePowerLaw, evalDeriv", "src/math_specfunc.cpp: qexp", "src/df_disk.h", "src/df_halo.h"]}
{"id": "C64", "title": "Ferrers bar and spherical Dehnen potentials", "statement": "Ferrers objects exist exactly for R>0 and 0<q<p<1, Dehnen objects for a positive scale radius and gamma in [0:2]; their densities are the documented ones; for Ferrers the gradient and Hessian returned at any point off the sphere r=10R (inside, on and outside the ellipsoid) are the derivatives of the returned potential, the Poisson equation holds with the documented density, within 10R the potential equals the classical integral over the heterogeneous ellipsoid and beyond 10R it is -M/r up to a small quadrupole; for the spherical Dehnen model gradient and Hessian are the derivatives of the documented potential, which satisfies the Poisson equation.", "quantifier": "all accepted parameters and all points except the sphere r=10R (Ferrers) or the origin (Dehnen), with the positive root of the ellipsoid equation found exactly", "why_tests_cant": "The derivative coefficients are twenty recurrences of elliptic integrals combined with an implicitly defined root; an error in one of them is a relation between functions over all of space, and finite differences only sample it.", "anchors": ["src/potential_ferrers.cpp: Ferrers, densityCar, FerrersLambdaRootFinder, evalCar, computeW", "src/potential_ferrers.h", "src/potential_dehnen.cpp: Dehnen, densityCar, evalCar (spherical branch)", "src/math_specfunc.cpp: ellintF, ellintE"]}
{"id": "C65", "title": "Raga Monte Carlo code", "statement": "In each episode of a Raga simulation the trajectory of every star is sampled at equal intervals independently of the timesteps of the integrator, and the new potential is built from exactly the samples of all stars of positive mass with the total mass of the system; snapshots are written once per output interval (0 disables them); a star is captured by the first black hole at whose pericenter passage the distance is within the capture radius (the larger of 8GM/c^2 and the tidal disruption radius), its stored position is that of the moment of capture; the captured mass (or the given fraction of it) is added to the black hole which captured it, so that the total mass is conserved; the evolution of the binary black hole conserves the energy and the angular momentum exchanged with stars, keeps the semimajor axis positive and the eccentricity below 0.999, and always ends; velocity kicks change the parallel and perpendicular components by the given amounts; the log contains the kinetic and potential energy of the system.", "quantifier": "all trajectories and their partitions into timesteps, numbers of stars, samples and episodes, masses, captures, encounters, parameters of the binary and intervals", "why_tests_cant": "The properties concern every partition of a trajectory into steps of the adaptive integrator, every history of captures and encounters, and an unbounded loop of the binary evolution whose number of iterations depends on the data; test runs are single realizations of a random process.", "anchors": ["src/raga_potential.cpp: RuntimePotential::processTimestep, RagaTaskPotential::finishEpisode", "src/raga_relaxation.cpp: RuntimeRelaxation::processTimestep", "src/raga_trajectory.cpp: RagaTaskTrajectory::outputParticles", "src/raga_losscone.cpp: RuntimeLosscone::processTimestep, RagaTaskLosscone::createRuntimeFnc, finishEpisode", "src/raga_binary.cpp: evolveBH, RagaTaskBinary::finishEpisode", "src/raga_core.cpp: computeTotalEnergyModel, doEpisode", "doc/readme_raga.tex"]}
{"id": "C66", "title": "Perfect ellipsoid potentials and spheroidal coordinates", "statement": "For any positive scale radii the potential of the perfect ellipsoid reported in cylindrical coordinates has the reported gradient and Hessian as its derivatives and satisfies the Poisson equation with the documented density; near the focal points, where a third-order expansion replaces the exact expressions, the expansion has the right coefficients and the reported derivatives are its derivatives; the spheroidal coordinates of a point convert back to the same point; the oblate variant of the class is constructed exactly for 0<minor<major, gives the same potential as the general class, and its derivatives with respect to (lambda, nu) are the true ones.", "quantifier": "all masses, positive scale radii (oblate, prolate and equal) and all points off the symmetry axis and off the disc inside the focal ring", "why_tests_cant": "The potential passes through coordinates whose branches depend on signs of half-sums and which degenerate at the focal points; the identity of Hessian and density is a relation over all of space, while tests sample a few points of a single oblate model and miss the prolate focal ring.", "anchors": ["src/potential_perfect_ellipsoid.cpp: PerfectEllipsoid::evalAxi, evalCyl, densityCyl, OblatePerfectEllipsoid::evalScalar, evalDeriv", "src/coord.cpp: toPosDeriv<Cyl,Axi>, toPosDeriv<Axi,Cyl>, getPosAxi, toPosDeriv<Cyl,ProlSph>, toGrad, toHess, ProlSph::ProlSph"]}
{"id": "C67", "title": "Density discretization schemes (target grids)", "statement": "The classic, cylindrical and spherical-harmonic density discretization schemes are constructed exactly for the documented parameters (an optional zero at the start of a grid is skipped) and the axes of the classic grid have unit product and the requested ratios; adding a point never fails, changes only elements within numValues, and nothing for a point outside the grid; in the classic scheme the increments sum to the weight of the point, for the top-hat variant a single cell which contains it, for the linear variant the (at most eight) corners of its cell, trilinearly, also across the edges of panes, with the names of nodes as given by coefName, and the mean radius is conserved; in the linear cylindrical scheme each harmonic reproduces bilinear functions of (R,z) exactly (so that m=0 elements sum to the mass), and in the spherical-harmonic scheme linear functions of radius, with the named harmonic (l,m) and node.", "quantifier": "all orders, numbers of strips, positive increasing grids, axis ratios, points and weights", "why_tests_cant": "Index arithmetic over panes, harmonics and grid nodes has as many cases as there are grids; an off-by-one at an edge puts mass into a wrong element without any visible failure.", "anchors": ["src/galaxymodel_densitygrid.cpp: TargetDensityClassic, TargetDensitySphHarm, TargetDensityCylindrical (constructors, addPoint, coefName), getCornerIndicesClassic, getCornerIndicesCylindrical", "src/galaxymodel_densitygrid.h"]}
{"id": "C68", "title": "Assignment of velocities to particles", "statement": "The routines which assign velocities to particles keep the positions, masses and number of particles, and the velocity of a particle depends only on its own position and index, hence not on the number of threads or the order of processing; with the Eddington method every particle is bound or at rest; with the spherical Jeans method the radial component and the speed are those of scaled Gaussian draws, and with the axisymmetric one the three cylindrical components are, and the velocity is that of the first bound draw, or of the hundredth one if there is none; the moments of the axisymmetric Jeans model are symmetric about the equatorial plane, have the documented relation between the radial and vertical dispersions, split the azimuthal second moment into rotation and dispersion according to kappa, and continue beyond the grid along the ray towards the centre in proportion to inverse distance.", "quantifier": "all points, generators of random numbers, distribution of draws, anisotropy and rotation parameters, and interpolated moments", "why_tests_cant": "Independence from other particles and boundness hold for every stream of random numbers, in particular for those with long runs of rejected draws, which tests with a fixed seed never meet.", "anchors": ["src/galaxymodel_velocitysampler.cpp: assignVelocityEdd, assignVelocityJeansSph, assignVelocityJeansAxi", "src/galaxymodel_jeans.cpp: JeansAxi::moments", "src/galaxymodel_jeans.h: JeansAxi"]}
{"id": "C69", "title": "Gauss-Hermite expansions", "statement": "The polynomials of a Gauss-Hermite expansion are the normalized Hermite polynomials, have the documented derivatives and are orthonormal with the documented weight; the value of the expansion is the normalized Gaussian times the sum of polynomials, norm() is its integral over the real axis, and the literal norms of single terms are correct to 1e-16; the moments of a generic function are the documented sum over 99 equally spaced points for any function; the residuals minimized in the fit to an interpolated function are the weighted differences between the function and the Gaussian, and the derivatives supplied to the fitting routine are the true ones.", "quantifier": "all orders, points, moments, functions, amplitudes, centres and positive widths", "why_tests_cant": "Orthogonality and the norm are integrals over the whole axis for every order; a test compares a few moments of one profile with loose tolerances and a wrong derivative only slows the fit down.", "anchors": ["src/math_gausshermite.cpp: hermiteArray, GaussHermiteExpansion::value, normn, norm, computeGaussHermiteMoments, GaussHermiteFitterInterp::evalDeriv", "src/math_gausshermite.h: GaussHermiteExpansion"]}
