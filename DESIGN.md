# Design of the formal model of Agama

(first version, written before the proofs; the per-property table is updated as the model grows)

## Technique
Every modelled function is a total, computable Gallina function (or, for real-number code, a Gallina
function over Coq's `R`), written next to a comment with the file and lines of /repo it follows.
* `theories/<Topic>.v` – model (and only the model) of a piece of code, with citations
* `theories/<Topic>Spec.v` or the head of the property file – small independent specification
* `theories/<Topic>Proofs.v` – lemmas
* `theories/<Topic>Props.v` – property theorems only, each `exact lemma`, plus `Print Assumptions` and a non-vacuity `Example`.

## Plan per property

* **C01 Key/value map is a case-insensitive ordered map** – Model KeyValueMap as list of (key,value) pairs, ops as list; refinement to an abstract map over lower-cased keys.
* **C02 INI configuration files round-trip** – Byte-string model of the ConfigFile parser/writer; round-trip theorem for well-formed configs; refutations for ill-formed ones.
* **C03 String tokenizer loses nothing and invents nothing** – Direct model on lists of characters; proved against an independent characterisation.
* **C04 Boolean/integer option parsing** – toBool scanner modelled directly; toInt modelled after strtod (external) on exact rationals/Z.
* **C05 Binary search finds the enclosing bin** – binSearch modelled with an arbitrary first guess (oracle), array as list, out-of-bounds read = error outcome.
* **C06 Band matrix storage represents the right elements** – Index arithmetic over Z; refutation when size < 2*bandwidth, proof otherwise.
* **C07 Band linear solver solves the system** – Exact-arithmetic (R) model of the loops over functions Z->R / lists.
* **C08 Matrix-vector products agree with the dense definition** – Same model of loops.
* **C09 Sparse matrix enumeration and conversions preserve the matrix** – CSC pointers as list of Z, uses the binSearch model with integer guess.
* **C10 Shared pointers free each object exactly once** – State machine of pointer variables, control blocks with counts; invariant over all op lists.
* **C11 Keyboard-interrupt handlers are properly nested** – State machine with signal events.
* **C12 Random number streams have maximal period and do not overlap** – N-word model with mod 2^64; GF(2)-linear maps as 128x128 matrices; vm_compute of matrix powers lifted by linearity lemma.
* **C13 Each thread owns its private random state** – Index arithmetic on the state array; refutation with witness, proof for the intended indexing.
* **C14 Uniform random numbers lie in the documented range** – Flocq binary64 model of uint64->double conversion and scaling; refutation + weaker [0,1] theorem.
* **C15 Random permutations are permutations** – List model of the in-place shuffle with oracle random values.
* **C16 Quasi-random (Halton) numbers are the radical inverse** – Q-valued model; digits specification.
* **C17 Random vectors are geometrically exact** – R-model.
* **C18 The adaptive sampler's cell tree always partitions its points** – Linked lists in arrays; invariant over op lists.
* **C19 The sampler delivers exactly the requested number of samples** – Q/R accumulations over lists.
* **C20 Text snapshots round-trip** – Line/field model of reader and writer; numbers as tokens.
* **C21 NEMO snapshots written are well-formed and read back unchanged** – Byte-level writer model and parser model following py/nemofile.py.
* **C22 Unit conversions are consistent** – R/Q-model, field identities.
* **C23 Coordinate transformations are mutually inverse and preserve invariants** – R-model with sqrt/atan2/sin/cos.
* **C24 Gradients and Hessians transform by the chain rule** – Coquelicot is_derive.
* **C25 Composite models are the sum of their components** – R-model over lists of components.
* **C26 Time-dependent (Evolving) potentials interpolate correctly** – R-model on top of binSearch.
* **C27 Potential modifiers transform derivatives consistently** – Coquelicot is_derive for a generic potential.
* **C28 Trajectories are recorded at regular intervals irrespective of internal timesteps** – R/Q-model of processTimestep with arbitrary step boundaries.
* **C29 Orbit equations of motion are the same in every coordinate system** – R-model of right-hand sides, compared with Cartesian Newton equations via Coquelicot derivatives.
* **C30 Spherical-harmonic index bookkeeping matches the declared symmetry** – Z/nat model of index functions.
* **C31 Trigonometric multiples recurrence** – R-model of the recurrence, induction.
* **C32 Closed-form polynomial solvers return exactly the real roots** – R-model.
* **C33 Integer power is exact repeated multiplication** – Z exponent with explicit 32-bit overflow outcome; ring-valued base.
* **C34 Root finder result is bracketed** – R-model of bracket updates with oracle function; fuel 64.
* **C35 Streaming averages equal batch averages** – R-model, induction.
* **C36 Angle wrapping/unwrapping** – R-model with floor.
* **C37 Scaling transformations of coordinates are inverse to each other** – R-model, Coquelicot derivatives.
* **C38 Euler-angle orientations are rotations** – R-model, nsatz/ring.
* **C39 Interpolating splines reproduce the nodes and their derivatives are consistent** – R-model of segment evaluation.
* **C40 Hashing distinguishes inputs differing in one word** – N-word model mod 2^64; bijectivity of odd multiplication and xorshift.
* **C41 Derivatives reported by composite function objects are the true derivatives** – R-model, Coquelicot derivatives.
* **C42 Analytic integrals are the integrals** – R-model, antiderivatives.
* **C43 Local interpolation and finite differences are exact for polynomials of the matching degree** – R-model.
* **C44 Density derived from a potential obeys the Poisson equation** – R-model, Coquelicot derivatives.
* **C45 Spherical-harmonic functions and their derivatives are exact** – R-model of the recurrences; Legendre functions as explicit derivatives of (x^2-1)^l.
* **C46 Fourier transform is lossless for band-limited functions** – R-model; orthogonality of sampled trigonometric functions.
* **C47 Spherical-harmonic transform round trip** – R-model; quadrature exactness as a hypothesis, discrete orthogonality.
* **C48 Numbers printed as strings are parsed back** – R-model.
* **C49 The slope-limited cubic spline preserves monotonicity** – R-model.
* **C50 Analytic potentials compute the documented formulas and consistent derivatives** – R-model.
* **C51 Kepler solver and binary black hole** – R-model.
* **C52 Integrals and convolutions of interpolators** – R-model.
* **C53 Gauss-Legendre quadrature is exact for polynomials** – R-model.
* **C54 B-splines: partition of unity, derivatives, integrals** – R-model.
* **C55 Roots and extrema of interpolators** – R-model.
* **C56 Generated grids span the interval and are strictly increasing** – R-model.
* **C57 Polygons: area, inclusion, clipping, and integrals of B-splines** – R-model.
* **C58 Action-angle variables of the isochrone potential** – R-model.
* **C59 ODE solvers: step accounting, accuracy orders and dense output** – R-model.
* **C60 Solvers of linear second-order systems: collocation, superposition and dense output** – R-model.
* **C61 Two-dimensional interpolators: definition region, interpolation, true derivatives, smoothness and symmetry** – R-model.
* **C62 Disk density profiles and the analytic part of the disk potential** – R-model.
* **C63 Action-based distribution functions** – R-model.
* **C64 Ferrers bar and spherical Dehnen potentials** – R-model.
* **C65 Raga Monte Carlo code** – R-model.
* **C66 Perfect ellipsoid potentials and spheroidal coordinates** – R-model.
* **C67 Density discretization schemes (target grids)** – R-model.
* **C68 Assignment of velocities to particles** – R-model.
* **C69 Gauss-Hermite expansions** – R-model.

## Trusted base

1. **Coq 8.16.1's kernel** (with `vm_compute`, used for finite computations over words, GF(2) matrices and a
   few table look-ups) and `coqchk`. No `-type-in-type`, no disabled guard/positivity/universe check, no
   plugin other than the standard tactics (`lra`, `nra`, `lia`, `ring`, `field`, `nsatz`), no axiom,
   `Admitted`, functor or module type of our own.
2. **Axioms listed by `Print Assumptions`** (each `Props*.v` ends with the `Print Assumptions` commands):
   * text, configuration, integer, lifetime, signal, permutation, random-word, index, IO theorems
     (C01–C04, C10–C13, C15, C30 (integer part), C40, …): *Closed under the global context*;
   * every theorem mentioning Coq's `R` (directly or through Flocq/Coquelicot):
     `ClassicalDedekindReals.sig_not_dec`, `ClassicalDedekindReals.sig_forall_dec`,
     `FunctionalExtensionality.functional_extensionality_dep`, and, where Coquelicot's/Flocq's or the
     standard library's analysis is used, `Classical_Prop.classic` — all four from Coq's standard library.
   * no axiom from another library. Coquelicot/Flocq are used as libraries of *proved* lemmas.
   * `vcheck`/`coqchk` also print constants sealed behind opaque module ascriptions in the standard library
     (`Coq.Reals.*`, `Coq.ssr.*`): they are definitions, not axioms.
3. **The transcription** of C++ into Gallina: there is no verified C++ front end. Each definition of a
   `*Model.v` file cites the lines it follows. The common encoding choices, all part of the trusted base:
   * C++ `int`/`unsigned`/`size_t`/`uint64_t` are `Z`/`N`/`nat`; where overflow or wrap-around matters
     (pow, binSearch, hash, random numbers, index functions) it is modelled explicitly (mod 2^64, or a UB outcome).
   * Loops are structurally recursive functions or `fuel` iterations with an explicit `Fuel` outcome; every
     theorem proves that fuel is never exhausted or that the bound in the code is the fuel.
   * Out-of-bounds reads/writes are the outcome `UB`; C++ exceptions are `Throw`. Theorems say explicitly
     which of them cannot occur.
   * `double` is Coq's `R` (exact arithmetic) unless the property is about rounding: C05, C14, C36
     (and the square root of C30) are proved in IEEE-754 binary64 with Flocq. NaN/infinity appear only where a
     model has an explicit constructor for them (C34, C28, C25–C27 `nan`-guard branches cited in comments).
   * external libraries (libc `strtod`/`printf`, GSL, Eigen, CVODE, cubature) are parameters or are modelled
     through their documented contract; each use says so.
   * concurrency: OpenMP threads are modelled only in C13; signals only in C11.

## What is modelled, file by file

| /repo file | modelled | not modelled |
|---|---|---|
| src/utils.cpp, utils.h | toInt/toBool/toDouble/toString(double)/splitString/endsWithStr/stringsEqual/removeStr parts, CtrlBreakHandler | formatted output `pp`, stack traces, verbosity |
| src/utils_config.{cpp,h} | KeyValueMap, ConfigFile (all of it) | file-system errors |
| src/shared_ptr.h | the whole class, incl. aliasing and failing allocation | thread-safety of counts |
| src/math_core.{cpp,h} | binSearch (double, float guess), linear/quadratic/cubic/quartic solvers, pow(int), powN, findRoot and its helper classes, Averager, wrapAngle, unwrapAngle, scaling objects, hermiteDerivs, deriv2, dxBetweenRoots, gaussian moments, integrateGL, prepareIntegrationTableGL (tabulated orders) | adaptive integration engines (GSL), findMin, sincos fast path, ScalingQui and DoubleInf iterations |
| src/math_random.cpp | xoroshiro-type generator, seeding, jump, hash, random/quasirandom, getNormal-pairs, random vectors, permutation | — |
| src/math_linalg.{cpp,h} | BandMatrix, band solver, dense/sparse wrappers and conversions, blas_dgemv etc. on these types | LU/Cholesky/SVD/QR (GSL/Eigen) |
| src/math_sphharm.{cpp,h}, math_specfunc.cpp (legendre part) | SphHarmIndices, FourierTransform, SphHarmTransform, trigMultiAngle, sphHarmArray | other special functions |
| src/coord.{cpp,h} | Car/Cyl/Sph conversions with all derivatives, toPos/toVel, Orientation | ProlMod (ProlSph and Axi: see the row of potential_perfect_ellipsoid.cpp) |
| src/potential_base.{cpp,h}, potential_composite.{cpp,h} | evaluation dispatch, densityFromLaplacian, Composite, Evolving, Shifted, Tilted, Rotating, Scaled, UniformAcceleration | averages by quadrature, enclosed mass |
| src/orbit.{cpp,h} | equations of motion, trajectory recording | the ODE integrator itself |
| src/math_spline.cpp | LinearInterpolator, CubicSpline (Hermite, natural/clamped, regularized), QuinticSpline (Hermite, from values and slopes), evaluation with extrapolation, integrate/convolve of these, B-splines in 1d (BsplineWrapper, BsplineInterpolator1d: values, derivatives, integrals, deriv/antideriv), roots and extrema of linear, cubic, B-spline curves, quintic extrema, grid generators, linear/cubic/quintic 2d interpolators | createInterpolationGrid, quintic roots, quintic from values only, finite elements, log-splines, 3d interpolators, penalized fits |
| src/math_geometry.{h,cpp} | all functions | floating-point rounding |
| src/actions_isochrone.{h,cpp} | evalIsochrone, mapIsochrone | floating-point rounding, signs of zeros, points with zero angular momentum (angles) |
| src/math_ode.{h,cpp} | initTimeStep, OdeSolverDOP853, OdeSolverHermite, Ode2SolverGL3, Ode2SolverGL4 | floating-point rounding (coefficients are the exact decimals), non-finite right-hand sides |
| src/math_glquadrature.h | all tables | — |
| src/units.h | the whole file | — |
| src/math_sample.cpp | Sampler (cells, points, refinement loop, drawSamples), sampleNdim | error estimate, Ctrl-Break, the DISABLE_QRNG variant; floating-point rounding |
| src/potential_analytic.{h,cpp} | all classes: Plummer, Isochrone, NFW, MiyamotoNagai, Logarithmic, Harmonic, KeplerBinary | infinite radii and masses, base-class enclosedMass |
| src/potential_disk.{h,cpp} | DiskParam, radial and vertical functions, createRadialDiskFnc, createVerticalDiskFnc, mass without hole and ripples, DiskDensity, DiskAnsatz | mass with hole or ripples (Bessel functions, quadrature), infinite radii |
| src/df_disk.{h,cpp}, src/df_halo.{h,cpp}, math_specfunc.cpp: qexp | Exponential, QuasiIsothermal (any interpolator of frequencies), DoublePowerLaw (constructor, evalDeriv) | the truncated series of qexp is modelled but excluded from the theorems; BetaFinder is replaced by an arbitrary 0<=beta<2; integrals over actions (totalMass) |
| src/potential_ferrers.{h,cpp}, src/potential_dehnen.{h,cpp}, math_specfunc.cpp: ellintF, ellintE | Ferrers (constructor, density, evalCar, computeW) with an exact root, Dehnen (constructor, density, spherical branch of evalCar) | numerical root-finding, the non-spherical branch of Dehnen, infinite positions |
| src/particles_io.cpp | text reader/writer, NEMO writer, format detection (build without UNSIO) | UNSIO formats, i/o errors |
| src/raga_*.cpp (potential, relaxation, trajectory, losscone, binary, core) | sampling of trajectories, selection of samples, output schedule, captures, accretion, evolution of the binary, velocity kicks, energies | encounters of stars with the binary, relaxation model, creation of the potential, initialization, logs |
| src/potential_perfect_ellipsoid.cpp, coord.cpp (spheroidal coordinates) | PerfectEllipsoid (evalAxi, evalCyl with the expansion near foci, density), OblatePerfectEllipsoid (constructor, evalScalar, evalDeriv), Cyl-Axi conversion with first and second derivatives, Cyl-ProlSph position | infinite coordinates, the symmetry axis, derivatives of the ProlSph conversion, continuity at the switch to the expansion |
| src/galaxymodel_densitygrid.{h,cpp} | constructors, addPoint and coefName of TargetDensityClassic<0/1>, TargetDensityCylindrical<0/1>, TargetDensitySphHarm; increments of computeDensityProjection<classic> | computeDensityProjection of the other schemes, quadrature nodes, computeDFProjection, values of the angular functions |
| src/galaxymodel_velocitysampler.cpp, src/galaxymodel_jeans.cpp | assignVelocityEdd, assignVelocityJeansSph, assignVelocityJeansAxi, JeansAxi::moments | assignVelocity (dispatcher), constructors of Jeans models, sampling of the Eddington distribution |
| src/math_gausshermite.cpp | hermiteArray, value, norm, normn, moments of a generic function, evalDeriv of the fitter for interpolators (order 2) | moments by Gauss-Legendre quadrature, B-spline matrix, classic moments, the minimizer |
| py/nemofile.py | reader (items, sets, arrays), writer | story items, PhaseSpace, byte-swapped files |

The table is extended as the model grows; anything not named (interface_*.cpp, other actions_*, df_*, galaxymodel_*,
math_spline except what is named, potential_multipole/cylspline/factory, …) is **not** modelled.

## Scope and findings per property
("refuted" = a theorem with suffix `_refuted` exhibits a concrete input for which the English claim is false of the code)

* **C01** Key/value map is a case-insensitive ordered map [proved, 9 theorems]. 
* **C02** INI configuration files round-trip [proved, 5 theorems]. Round trip proved for well-formed configurations (and everything the reader can produce is well-formed); the unrestricted claim is refuted: an unnamed section created after a named one is merged into it.
* **C03** String tokenizer loses nothing and invents nothing [proved, 2 theorems]. 
* **C04** Boolean/integer option parsing [proved, 3 theorems]. 
* **C05** Binary search finds the enclosing bin [partial, 6 theorems]. Exact theorem for exact arithmetic and integers; for IEEE doubles (Flocq) memory safety is proved for every finite increasing array, the enclosing-bin claim is proved partially and refuted for overflowing/degenerate grids.
* **C06** Band matrix storage represents the right elements [partial, 5 theorems]. elem(k) enumerates values() when N>=2B; refuted otherwise (3x3 matrix with bandwidth 2 reports column 3).
* **C07** Band linear solver solves the system [proved, 3 theorems]. 
* **C08** Matrix-vector products agree with the dense definition [proved, 5 theorems]. 
* **C09** Sparse matrix enumeration and conversions preserve the matrix [partial, 8 theorems]. Enumeration proved for every well-formed CSC matrix, both builds. Construction of a dense matrix from triplets differs between the Eigen and GSL builds for duplicate positions (refuted); band->dense through elem is partial (2B<=N).
* **C10** Shared pointers free each object exactly once [proved, 3 theorems]. Proved for single-threaded histories with nested destruction of member pointers and allocation failures; reset() of an aliasing pointer that stores null keeps ownership (refuted corner case).
* **C11** Keyboard-interrupt handlers are properly nested [proved, 2 theorems]. 
* **C12** Random number streams have maximal period and do not overlap [proved, 9 theorems]. Proved for every seed; a user-provided state of zero stays at zero forever (refuted corner case).
* **C13** Each thread owns its private random state [partial, 5 theorems]. With explicit states the streams are independent of scheduling; random(NULL) indexes state[tid] although two words per thread are used, so adjacent threads share a word (refuted).
* **C14** Uniform random numbers lie in the documented range [proved, 3 theorems]. Range [0,1] with an exact characterisation; the half-open range [0,1) is refuted: 1.0 is returned for the top 1024 values.
* **C15** Random permutations are permutations [proved, 2 theorems]. 
* **C16** Quasi-random (Halton) numbers are the radical inverse [proved, 5 theorems]. Termination and distinctness for bases >= 2.
* **C17** Random vectors are geometrically exact [proved, 5 theorems]. 
* **C18** The adaptive sampler's cell tree always partitions its points [proved, 6 theorems]. Exact-real arithmetic; the quasi-random numbers are an arbitrary function with values in [0,1) and the user's function is arbitrary (may fail). Floating-point corner not covered: a coordinate lower+(upper-lower)*u may round up to the upper boundary, where the histogram index 16 would be out of range. Termination of the loop over cells is shown for pairwise distinct coordinates (the general claim is false for coincident points); the outer loop has a fixed number of iterations. The error estimate and Ctrl-Break are not modelled.
* **C19** The sampler delivers exactly the requested number of samples [proved, 3 theorems]. Exact-real arithmetic (the accumulated sum equals the integral exactly; in floating point the final assertion relies on identical order of summation). At least one requested sample: for zero samples the code takes &permutation.front() of an empty vector.
* **C20** Text snapshots round-trip [proved, 12 theorems]. Unit conversions in exact rational arithmetic; printf/strtod after the C standard. Particles must have finite x (a particle with x = NaN or +inf is silently dropped on reading: refuted), the header must not contain a newline (refuted otherwise), and an empty file makes readSnapshot read uninitialised memory (refuted). Optional UNSIO formats not modelled.
* **C21** NEMO snapshots written are well-formed and read back unchanged [proved, 9 theorems]. Float/double conversion is an arbitrary function into 32/64-bit patterns (little-endian machine). Zero particles are undefined behaviour (refuted). Python reader: story items, PhaseSpace entry and byte-swapped files not modelled. A file truncated inside a tag makes the Python reader loop forever (refuted).
* **C22** Unit conversions are consistent [proved, 6 theorems]. The arcsec constant is written with 7 digits of pi, so exactness of the angular units is refuted; everything else exact in real arithmetic.
* **C23** Coordinate transformations are mutually inverse and preserve invariants [proved, 17 theorems]. All six conversions of positions and velocities among Car/Cyl/Sph, everywhere incl. the axis and the origin, in exact arithmetic. Corner case refuted: Cyl->Sph at the origin drops vphi and may return theta<0. Infinite coordinates and the Axi/ProlSph systems are not part of this theorem.
* **C24** Gradients and Hessians transform by the chain rule [proved, 12 theorems]. All six conversions, first and second derivatives, any function possessing derivatives; Car<-Cyl/Sph off the z axis (on the half-plane where atan2 jumps for 2pi-periodic functions); radial functions everywhere; the two-step conversion for the instance Car<-Cyl<-Sph.
* **C25** Composite models are the sum of their components [proved, 11 theorems]. For arbitrary lists of components of any native coordinate system; nested composites included. The enclosed-mass loop is a parameter.
* **C26** Time-dependent (Evolving) potentials interpolate correctly [proved, 8 theorems]. Exact-real times; also true derivatives in all systems and closure under composition.
* **C27** Potential modifiers transform derivatives consistently [proved, 15 theorems]. Shifted, Tilted, Rotating, Scaled and UniformAcceleration, potentials and densities, with time-dependent parameters as arbitrary functions.
* **C28** Trajectories are recorded at regular intervals irrespective of internal timesteps [proved, 6 theorems]. Exact-real times, arbitrary internal steps. Sampling interval comparable to the rounding slack of the time variable leads to an out-of-bounds write, and a second run() starting at the solver's overshoot leaves unassigned points (both refuted).
* **C29** Orbit equations of motion are the same in every coordinate system [proved, 13 theorems]. All three coordinate systems, rotating frame included, arbitrary (time-dependent) potentials; refuted corner states: R<0 or theta outside [0,pi] with non-zero azimuthal velocity (the integrator can step there, the initial conditions cannot), and the Hermite jerk for a time-dependent potential. Exact-real right-hand sides; the ODE stepping itself is not modelled.
* **C30** Spherical-harmonic index bookkeeping matches the declared symmetry [proved, 9 theorems]. All sizes up to 2^32 coefficients (the integer square root goes through binary64). Refuted: a declared rotational symmetry with mmax>0 does not remove m>0 harmonics; the symmetry reported by an object may be refused when passed back to the constructor.
* **C31** Trigonometric multiples recurrence [proved, 1 theorems]. Exact-real recurrence.
* **C32** Closed-form polynomial solvers return exactly the real roots [partial, 8 theorems]. Linear and quadratic solvers: exact root sets. Cubic/quartic: returned values are roots within the proved conditions; refuted: a cubic with a slightly negative discriminant within the tolerance returns a non-root double, x^4+x^2=0 returns no roots, and the zero equation returns [0].
* **C33** Integer power is exact repeated multiplication [proved, 3 theorems]. All int exponents except INT_MIN (undefined behaviour, refuted).
* **C34** Root finder result is bracketed [proved, 4 theorems]. Modelled with arbitrary (NaN/infinite derivative included) user functions. If both endpoints evaluate to zero the midpoint is returned although it need not be a root (refuted).
* **C35** Streaming averages equal batch averages [proved, 3 theorems]. Mean, count, and variance with 1/(N-1); the header documents 1/N (refuted).
* **C36** Angle wrapping/unwrapping [proved, 7 theorems]. Exact arithmetic for any period; wrapAngle also in IEEE binary64 for every double (range, identity, idempotence, accuracy).
* **C37** Scaling transformations of coordinates are inverse to each other [partial, 8 theorems]. Mutual inverses for all closed-form transformations; cubic: the approximate inverse is within a relative 2e-13 of the exact one everywhere; quintic: bijection proved; the iterative inverse of ScalingDoubleInf with u0>0 and of ScalingQui is not modelled.
* **C38** Euler-angle orientations are rotations [proved, 9 theorems]. For every rotation matrix (not only those built from angles).
* **C39** Interpolating splines reproduce the nodes and their derivatives are consistent [proved, 10 theorems]. Exact-real arithmetic, grids of any length. Refuted: for data symmetric about the middle of the grid the prescribed end slopes are ignored (clamped_symmetric), and a slope prescribed at the left end only is ignored for two-point grids (clamped_left_only). The quintic spline built from values only, B-spline amplitudes and log-scaled splines are not modelled.
* **C40** Hashing distinguishes inputs differing in one word [proved, 2 theorems]. 
* **C41** Derivatives reported by composite function objects are the true derivatives [partial, 6 theorems]. All objects; LogLogScaledFnc second derivative returns 0 when f'' is (nearly) zero, refuted for f=1+x.
* **C42** Analytic integrals are the integrals [partial, 2 theorems]. Gaussian moments n<=7 relative to an antiderivative of exp(-y^2/2); n>=8 (incomplete gamma functions of GSL) not modelled.
* **C43** Local interpolation and finite differences are exact for polynomials of the matching degree [partial, 9 theorems]. hermiteDerivs gives NaN for the third derivative on a uniform grid (refuted); dxBetweenRoots returns half the documented distance (refuted).
* **C44** Density derived from a potential obeys the Poisson equation [proved, 6 theorems]. Exact off the singular axis; on the axis for axisymmetric functions and at the centre for spherical ones; on the axis the result is wrong for other functions (refuted). The strip 0<R<=|z|*2^-26 is an approximation and not covered.
* **C45** Spherical-harmonic functions and their derivatives are exact [proved, 4 theorems]. Exact-real arithmetic; in the strips 0<sin(theta)<1e-8 (m<=2) the code deliberately uses leading-order expansions of the derivatives: there only the value is covered.
* **C46** Fourier transform is lossless for band-limited functions [proved, 3 theorems]. Exact-real arithmetic.
* **C47** Spherical-harmonic transform round trip [proved, 4 theorems]. The nodes and weights returned by prepareIntegrationTableGL are a parameter, assumed to form a symmetric Gauss-Legendre rule (exact up to degree 2n-1); shown to be satisfiable for n=3.
* **C48** Numbers printed as strings are parsed back [proved, 4 theorems]. printf %g and strtod are modelled after the C standard (exact decimal arithmetic); 17-digit exactness for Flocq binary64 with round-to-nearest. The sign of zero is not tracked; inf and nan are covered in C20.
* **C49** The slope-limited cubic spline preserves monotonicity [proved, 2 theorems]. Exact-real arithmetic.
* **C50** Analytic potentials compute the documented formulas and consistent derivatives [proved, 13 theorems]. Exact-real arithmetic. Miyamoto-Nagai in Cartesian coordinates: off the z axis. NFW within 7e-4 scale radii: error bounds instead of exactness. Enclosed masses computed numerically by the base class (Isochrone, NFW, Miyamoto-Nagai, ...) are not modelled.
* **C51** Kepler solver and binary black hole [partial, 14 theorems]. Exact-real arithmetic. Missing: termination of the solver for eccentricities above 0.7 (accuracy at return is proved up to 1-1e-10). Orbit theorems are for an exact solver (shown to exist; the actual one is within 2e-15/(1-e)). Refuted: the Hessian returned by KeplerBinary has the wrong sign; enclosedMass is zero inside the semimajor axis even when the black holes are within the radius.
* **C52** Integrals and convolutions of interpolators [partial, 10 theorems]. Exact-real arithmetic with the actual tabulated constants (doubles nearest to the literals). Refuted: integrate(x1,x2,f), and integrate(x1,x2,n) with n above ~35, read uninitialised memory (sum += I0[i] instead of I0[i-i1]) whenever x1 lies at or beyond the second node; a segment where f integrates to zero is dropped although f changes sign there (7/3 instead of 3 in the example).
* **C53** Gauss-Legendre quadrature is exact for polynomials [partial, 8 theorems]. The tables are the exact doubles; the sums are over the reals. Missing: prepareIntegrationTableGL for orders without a table (iterative computation).
* **C54** B-splines: partition of unity, derivatives, integrals [partial, 15 theorems]. Everything but eval is proved for every degree; eval(x, values) is refuted (writes to a local array instead of the output, out of bounds beyond the first segment), and integrate(x1,x2,f) inherits the undefined behaviour of C52.
* **C55** Roots and extrema of interpolators [partial, 14 theorems]. Linear and B-spline roots and cubic/B-spline extrema are proved; cubic roots assume the discriminant of each cubic piece is not within rounding error of zero without being zero (C32's solver tolerance); linear extrema assume the right limit is not at an inner node. Refuted: limits outside of the grid (failed assertion), degenerate interval, duplicate roots at x=0, missing right end for linear interpolators. Quintic extrema: only order, range and absence of failures; quintic roots are not modelled.
* **C56** Generated grids span the interval and are strictly increasing [partial, 8 theorems]. Uniform, exponential, mirrored and symmetric grids are proved. Growing steps: proved when xmax >= 1.001 n xmin (n nonzero nodes, n(ln(xmax/xmin)+3) <= 1e5) and the root finder does not hit its iteration limit, and when xmax = n xmin; the undocumented case xmax < n xmin is missing. Refuted: two nonzero nodes (and symmetric grids of 5 nodes) throw an exception although the documentation allows them.
* **C57** Polygons: area, inclusion, clipping, and integrals of B-splines [partial, 9 theorems]. Proved for every polygon with the constants of the code: area, inclusion, clipping, memory safety, flag, and exact integrals for spline degrees 0 and 1; for degree 2 the integrals are exact for the exact values of the quadrature constants, from which the decimal constants of the code differ by less than 1e-15 each. Missing: accuracy for degree 3 (the rules are not exact there by design; only the sum of all integrals is proved). Refuted: the documented dependence of isPointInsidePolygon on the orientation.
* **C58** Action-angle variables of the isochrone potential [partial, 15 theorems]. Proved over the reals with an exact solver of Kepler's equation: actions of every bound point, frequencies as derivatives of the Hamiltonian, Newton's equations along the mapped orbit, actions of the mapped point for any solver, and both conversions there and back for non-circular orbits with Jphi<>0. Refuted: the mapped point is not periodic in thetar (a turn added to thetar shifts the orbital phase; no range is documented); orbits with Jphi=0 keep the azimuth beyond the pole; exactly circular orbits have undefined angles; frequencies at E=0 are zero instead of the documented NaN.
* **C59** ODE solvers: step accounting, accuracy orders and dense output [partial, 22 theorems]. Proved over the reals with the exact decimal coefficients: step accounting, step-size selection and its termination, C1 dense output, order 8 (step) and error h^7 (interpolation, sharp) for every linear autonomous system and for polynomial right-hand sides of time. Missing: the order conditions for nonlinear systems. Refuted for the Hermite solver: the interpolated position at the end of a step differs from the new position by dt^5/720 times the crackle; after a step in a uniform field the next timestep is NaN; backward steps are never repeated; an index out of range is not an error; getSol right after init does not give the state.
* **C60** Solvers of linear second-order systems: collocation, superposition and dense output [partial, 15 theorems]. Proved over the reals with the exact decimal nodes (themselves proved to be within 1e-16 of the Gauss-Legendre roots): GL3 completely (continuity, velocity = derivative, existence, uniqueness and geometric convergence to the collocation solution, exactness for quartics over any history, superposition). GL4 refuted in one point: the velocity returned by getSol inside the previous timestep has a misplaced parenthesis (4*(r+T*5*s) instead of 4*r+T*5*s), so it is not the derivative of position and is discontinuous at the beginning of the step (concrete system: 3/4 instead of 0); positions and the velocity at the current time are right, for these the same theorems as for GL3 are proved. Missing: the orders 6 and 8 with respect to the exact solution; dt=0 (division by zero) is not modelled.
* **C61** Two-dimensional interpolators: definition region, interpolation, true derivatives, smoothness and symmetry [partial, 18 theorems]. Exact-real arithmetic, finite data. Proved for the linear and cubic interpolators (any boundary conditions and regularization for interpolation, true derivatives, NaN region and agreement with the one-dimensional spline on grid lines; C2 smoothness, sides, superposition, transposition without regularization). Refuted: the linear interpolator reports a zero mixed derivative although it is not zero; prescribed derivatives are lost on symmetric grids with symmetric data. Smoothness with regularization is not claimed. Also proved for the quintic splines, with and without the table of mixed derivatives: constructor errors, node values and derivatives, true derivatives up to the second everywhere, agreement with one-dimensional quintic splines on grid lines, exactness for bicubic (or separable cubic plus xy) polynomials, the estimate of the mixed derivative at nodes, flat lines; refuted: df/dx zero along an interior line x=x_i does not make it zero between the nodes, contrary to the code comment.
* **C62** Disk density profiles and the analytic part of the disk potential [partial, 13 theorems]. Exact-real arithmetic with infinities and NaN. Proved: constructor errors, surface density with true derivatives for R>0 (and in the centre for a plain exponential or with a hole), vertical profiles with unit mass and antiderivatives (the second one exact outside the thin layer |z/h|<1e-5 or 1e-3, error bounded by 1e-20 h inside), potential, gradient, Hessian and density of the ansatz everywhere except the origin, for the built-in and for any user-supplied functions, residual density, thin disks off the plane, total mass for any Sersic index without hole and ripples (given the gamma integral). Refuted: in the centre of a disk without hole that is not a plain exponential the force, its derivatives and the ansatz density are NaN although the gradient is zero. Not modelled: mass with a hole or ripples (Bessel functions, numerical integration), infinite radii.
* **C63** Action-based distribution functions [partial, 11 theorems]. Exact-real arithmetic (infinities and NaN in DoublePowerLaw). Proved: constructor conditions, documented values, positivity, true gradients at Jphi<>0, parity, the limit of small actions with a core. Not covered: the truncated series of qexp for 0<q<=1e-7, derivatives of Exponential and QuasiIsothermal at J=0 with zero additive constants, and the root-finder for beta (any 0<=beta<2 is allowed). Refuted: with a core and slopeIn>0 the value at J=0 is 0 instead of the positive limit; a rotating model with the default Jphi0=0 returns NaN for Jphi=0.
* **C64** Ferrers bar and spherical Dehnen potentials [partial, 9 theorems]. Exact-real arithmetic; elliptic integrals as Riemann integrals; the root-finder is assumed to return the exact positive root (existence and uniqueness proved). Not covered: the sphere r=10R where the code switches to the quadrupole expansion (no continuity there), NaN for infinite positions, the flattened/triaxial Dehnen branch (numerical integration), and the accuracy of the series used by the spherical Dehnen potential at r>500(4-gamma)a.
* **C65** Raga Monte Carlo code [partial, 27 theorems]. Exact-real arithmetic except one theorem in binary64. Not modelled: detection of encounters with the binary, construction of the relaxation model and of the spherical potential, initialization, log I/O. Root-finder, random numbers and the orbit integrator are arbitrary. Refuted: rounding may lose the last sample of every star (episodeLength=100, 11 samples) and hence 1/11 of the mass of the potential; outputInterval=0 is documented to disable the output but writes snapshots twice at each boundary of episodes; capture radii of a binary use the whole mass for the first black hole and zero for the second (inverted condition, raga_losscone.cpp:121-122); the position of a captured star is an extrapolation to a wrong moment; captureMassFraction<1 is not taken into account in the mass ratio of a binary; the loop evolving the binary never ends when stars supply enough energy to dissolve it.
* **C66** Perfect ellipsoid potentials and spheroidal coordinates [partial, 11 theorems]. Exact-real arithmetic. Proved off the symmetry axis, off the disc inside the focal ring and off the boundary of the region of the expansion (the switch itself is not claimed to be continuous; the expansion is shown to be the third-order one with an explicit remainder). Refuted: for prolate models (A<B) below the equatorial plane near the focal ring dPhi/dR and d2Phi/dRdz have the wrong sign (signp tests D instead of D2, potential_perfect_ellipsoid.cpp:148). The oblate class: derivatives proved where tau/c^2>1e-5 (below that short series are used), value where it is zero or above 1e-16.
* **C67** Density discretization schemes (target grids) [proved, 13 theorems]. Exact-real arithmetic, int indices do not overflow; the angular functions (Legendre, cos m phi) are arbitrary here. Of computeDensityProjection only the classic scheme is covered (its quadrature increments equal addPoint's, C67_classic_projection); computeDensityProjection of the other two schemes, the choice of quadrature nodes and weights, and computeDFProjection are not modelled. The top-hat cylindrical scheme has its cell and weights proved instead of moments.
* **C68** Assignment of velocities to particles [proved, 9 theorems]. Exact reals; the generator of random numbers and the Eddington sampler are arbitrary functions of their state; construction of the Jeans and Eddington models is not modelled (interpolators are arbitrary functions). The Jeans samplers return an unbound particle after 100 rejected draws (C68_ex_unbound), so boundness is claimed for Eddington only. The comment in galaxymodel_velocitysampler.h about kappa (sigma_phi=sigma_R) differs from the code and galaxymodel_jeans.h (epicyclic ratio), which are followed here.
* **C69** Gauss-Hermite expansions [proved, 10 theorems]. Exact-real arithmetic; integrals over the real axis are limits of Riemann integrals, and norms are relative to the normalized Gaussian (its own integral is not computed). Not modelled: moments of interpolated functions and the matrix for B-splines (Gauss-Legendre quadrature), classic moments, the fitter for generic functions, orders above 2 in the fit (never used), the minimizer.
