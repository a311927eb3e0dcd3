# Formal model of JLRipley314/scalar-field-kerr in Rocq (Coq 8.16.1)

## 1. Shape of the model

The C++ (and the part of `sim_class.py` that computes run parameters) is transcribed function by
function into total, executable Gallina functions; every definition cites its source lines.

* **Outcomes** (`Base.v`): `res A = Ok a | UB | Abort | Throw | Exit code`. An out-of-range `v[i]`,
  division of integers by zero, or use of a null FFTW plan is `UB`; a failed `assert` is `Abort`
  (skipped when the build flag `ndebug` is set, which is the default of `Source/Makefile`).
* **size_t**: sizes and indices are `nat`; subtractions that can underflow are `wsub` (mod 2^64);
  where mixed signed/unsigned arithmetic matters (`Sphere::raise/lower`, index products) it is done
  in `Z` modulo 2^64.
* **double**: the model is polymorphic in a type class `Arith F` of the operations the code uses
  (no laws assumed). Theorems about loops, buffers, indexing, schedules and driver behaviour are
  proved for *every* `Arith`, hence also for IEEE doubles with the code's evaluation order.
  Numerical theorems instantiate `F := R` (exact arithmetic). Double-precision refutations
  instantiate the standard library's executable `SpecFloat` (binary64).
* **Vectors** are lists; loops are structural recursion on the trip count.
* **Build flags** `USE_CHEB`, `SHTNS_CONTIGUOUS_LONGITUDES`, `NDEBUG` are a record `build` that every
  theorem quantifies over unless the property is about one of them.
* **External libraries**: see section 4.
* **OpenMP** loops are modelled twice: sequentially, and as threads of atomic reads/writes under
  arbitrary interleaving (`Conc.v`). C24 shows that every interleaving gives the sequential memory.

### Model files

| file | models |
|---|---|
| `Base.v`, `Arith.v` | outcomes, loops, checked array access, `assert`, `size_t`; arithmetic class, instances `R_arith` and `b64` |
| `MFd.v` | `finite_diff.{hpp,cpp}` |
| `MCheb.v` | `cheb.{hpp,cpp}` |
| `MSphere.v` | `sphere.{hpp,cpp}` |
| `MGrid.v` | `grid.{hpp,cpp}` |
| `MParams.v` | `params.{hpp,cpp}` |
| `MField.v` | `field.{hpp,cpp}` |
| `MEom.v` | `scalar_eom.{hpp,cpp}` |
| `MInit.v` | `initial_data.{hpp,cpp}` |
| `MIo.v` | `io.{hpp,cpp}` |
| `MMain.v` | `main.cpp` |
| `MSim.v` | `sim_class.py`: `set_derived_params`, `write_sim_params` |
| `MFmt.v` | `operator<<` for doubles with 16 digits, `std::stod` (C86, C87) |
| `MLaunch.v` | `sim_class.py`: `make_output_dir`, `launch_run`; the disk and the job queue |
| `MDerived.v` | `sim_class.py`: `set_derived_params` in doubles |
| `MCrash.v` | the trace of appends of `main.cpp`, for kills |
| `MSlurm.v` | `sim_class.py`: `write_slurm_script`, `run_str`, the OpenMP environment of a local run |
| `MBuild.v` | `Source/Makefile`, `Test/Makefile` (of its objects those in Source), the `%.run` and clean rules of `Makefile`, `config.py`, `sim_class.py`: `then_recompile`. make is its time stamp rule; which objects survive an invocation (make deletes those it takes for intermediate) is left open; time stamps strictly increase, compilations succeed, `profile` is left out |
| `Conc.v` | threads sharing memory, for the `#pragma omp` loops and sections |

### Specification files (no reference to the model's functions)

`Spec.v` (polynomials, sums, Chebyshev polynomials, total variation), `GridSpec.v`, `SphereSpec.v`,
`LegSpec.v` (spherical harmonics by Rodrigues' formula, differential operators on the sphere), `EomSpec.v`
(documented field equation, energy density, jets), `RkSpec.v` (classical RK4), `ContSpec.v` (continuum
fields and exact derivatives), `KerrSpec.v` (Kerr metric, covariant wave operator, action,
Euler-Lagrange equation), `TruncSpec.v` (transforms with fewer orders than degrees).

Files `P*.v` without `Prop` hold lemmas; files `Prop*.v` hold the theorems `Cnn_...` and the
`..._nonvacuous` examples that meet their hypotheses.

## 2. Per property: what is modelled, how it is proved

`properties.jsonl` has the statements; `MANIFEST.json` maps them to theorems.

| ids | modelled | proof |
|---|---|---|
| C01-C05 | `Grid` index functions and row getters/setters, both layouts, assertions | nat arithmetic; loop invariant for pointwise-write loops |
| C06 | constructor tables | loop invariant |
| C07, C08, C10, C13 | `FD::der/der2/filter` with checked accesses | loop spec, then `field`/`ring` |
| C09 | same | Taylor-Lagrange (Coquelicot) |
| C11, C12 | `FD::filter` | trigonometric identity; explicit step witness |
| C14 | point formulas | trig monotonicity |
| C15-C20 | `Cheb` | discrete cosine orthogonality by Dirichlet-kernel telescoping; Chebyshev derivative recurrence |
| C21-C23, C26 | `Grid` operators | slice specification lemma + C07/C08/C17 |
| C24 | interleaving semantics | footprint-disjointness theorem, instantiated for each loop |
| C25, C27 | reductions | permutation invariance over R; binary64 witness by `vm_compute` |
| C28-C36 | `Sphere` over lawful transforms | coefficient loops + synthesis formula; Legendre derivative identities |
| C37-C43 | `Scalar_eom` | real-field algebra, limits |
| C44-C47 | RK4 buffers | symbolic execution for any `Arith` |
| C48-C51 | `main` | induction on steps |
| C52-C55 | `Params` | string lemmas |
| C56-C59 | `Csv` | string/list lemmas |
| C60-C63 | `ID::compact_pulse` | loop invariant with running maximum |
| C64, C66 | `sim_class.py` with the solver's grid and coefficients | real algebra |
| C65 | the whole program | composition of the totality lemmas of every function |
| C67, C68 | `set_k`, `set_rho` on samples of a continuum function | C21 + C28/C29/C71 + C37/C41 |
| C69 | `set_n_l_coef`, `write_n_psl` | C15 + C34 |
| C70 | Kerr geometry and action versus `set_k` | C67 + calculus of variations at a point |
| C71 | `raise`, `lower`, `sphereX` with SHTns's layout for mmax < lmax | position arithmetic + C31 |
| C72, C73 | `time_step` iterated, over linear transforms (`SymSpec.v`) | linearity (quadraticity for `sphereX`) of every operator, then RK4 and induction on steps |
| C74, C75 | `time_step` iterated, over transforms covariant under the point map (`RotSpec.v`) | covariance of every operator (spectral multipliers commute with the phases; `sphereX` is a sum of squares of ladder images), of the coefficients, then RK4 and induction on steps |
| C76 | `time_step` with the step length as a variable; exact solutions of the semi-discrete equations (`OrderSpec.v`) | every slope is a rational function of the state (linear operators, one quadratic form, k and V), so it has third-order jets along curves (`PJet*.v`); the order conditions are checked on jets, the exact solution is expanded by integrating its equation; existence for the free equations by power series (`PLinOde.v`) |
| C77 | `steps` with step length T/N; coefficient of one harmonic on one shell (`ZenoSpec.v`) | the filter multiplies every harmonic below the edge by a factor < 1 (C36), one Runge-Kutta step moves every harmonic by O(dt) times the size of the filtered state (matrix bound of the free slopes), so the harmonic is at most d^N + O(1/N) (`PZeno.v`); second theorem by continuity of the exact solution and uniqueness of limits; hypotheses instantiated in `PropZenoInst.v` |
| C78 | `set_k` on samples of smooth fields (`SmoothSpec.v`), finite-difference build | C21's error bound with constants uniform over the finitely many angular lines (continuous functions on a compact interval are bounded), angular operators exact on the spectrum, explicit bounds of the equation's coefficients for 1/r <= 1/Rmin, propagation of the four derivative errors through the right-hand side (`p_rhs_error`); instantiated for every nx in `PropOrderXInst.v` |
| C79 | `time_step` iterated (`steps`), free couplings, data of one azimuthal order (`pure_order`, `PropAzimuth.v`) | the data v and its quarter-turned partner w are rotated by one grid spacing into cos(d) v + sin(d) w and -sin(d) v + cos(d) w; by C74 (rotation covariance) and C72 (superposition) the evolved pair satisfies the same relation, which determines the phi-dependence on every circle by induction on the longitude index |
| C80 | `steps` with spin 0; `harmonic` (ZenoSpec.v), `harmonic_shape`, `spherical` (`PropSchw.v`) | at a = 0 the coefficient arrays do not depend on theta and the d/dphi cross terms vanish; the radial operators act on the shells as one matrix (linear functionals of a line), Laplacian and filter multiply each harmonic by a number, so absence of a harmonic is invariant; with superposition (C72) this gives (i). (ii) product form u(r) y is invariant for a common eigenvector y; (iii) the same with y = 1, sphereX of a constant being 0 (C33) |
| C81 | `fd_der`, `fd_der2`, `fd_filter`, `FD_make` over the binary64 instance `b64` (standard library `SpecFloat`, libm functions arbitrary); `val`, `fin`, `uu`, `eta` (`FpSpec.v`) | `Fp.v` connects `SFadd`, `SFmul`, `SFdiv`, `binary_normalize` with Flocq's proved operations, giving the standard model x op y = r(1+d)+e, \|d\| <= 2^-53, \|e\| <= 2^-1075 when the result is in range; `FpErr.v` propagates a bound (magnitude, number of roundings) through the stencils; C09 gives the truncation part. pow(dx,2) is taken to be the correctly rounded square |
| C82 | `norm_indep_res`, `total_variation` over `b64` with `deals` (PRed.v) | a reduction is a tree of additions whose leaves are the non-negative terms, each once (`adds`, FpRed.v); by induction on the tree a finite result is the exact sum times a factor in (1 +- 2^-53)^N (adding zero is exact, so empty threads cost nothing), and no tree overflows if the exact sum is in range; then division by N and square root |
| C83 | `to_Ylm`, `to_Sph`, `to_Ylm_c`, `to_Sph_c` with `lawful`/`clawful`/`tlawful` (SphereSpec.v, TruncSpec.v) | the copies are total for the stated sizes and undefined for short buffers (induction on the copy loop); samples determine a band-limited function's coefficients by the contract |
| C84 | both overloads of `Params::_read_array` (MArray.v); `>> size_t` as specified by the standard, `>> double` a parameter | the loop is determined by a relational specification (induction on the text); launcher lines by induction on the list; deterministic relation gives uniqueness |
| C85 | `Eom_make`, `coef_at`, `inv_r_at`, `R_to_r`, `FD_make`, `fd_pt` over `b64`; `launch_horizon`, `launch_Rmin` (MSim.v, any arithmetic); pow(x,2) as x*x rounded once, pow(x,0.5) as correctly rounded square root, cos a parameter | forward error analysis with running error bounds (`ap`, FpErr.v; quotients `ap_divg`, FpKerr.v); doubles >= 1/2 lie on the grid 2^-53 Z, so a node that differs from cl does so by more than the code's tolerance; division by a rounded zero gives infinity and then 0 |
| C86 | `fmt16` (MFmt.v): printf's %.16g on `spec_float`, executable (decimal exponent, scaled quotient rounded half-even, fixed or exponent style, trailing zeros dropped); plugged into the file models (`csv_write`, `write_R_psl` over `b64`) | the printed number is Flocq's `round radix10 (FLX_exp 16) ZnearestE`; spec `decimal_text` (FmtSpec.v) relates a text to the real it denotes and is functional (scanner); digit strings determined by their place value |
| C87 | `stod64` (MFmt.v): strtod's grammar for decimal numerals, inf and nan, correctly rounded by the standard library's `SFdiv_core_binary`/`binary_round_aux`; ERANGE as in glibc; hexadecimal texts a parameter | scanner lemma + Flocq's `Bdiv_correct_aux` (holds for integers of any size): the result is `round radix2 (FLT)` of the denoted real or an exception; gap between neighbouring doubles via `succ`/`pred` |
| C88 | `MLaunch.v`: paths, a disk of files and directories, `os.makedirs`, `make_output_dir`, `launch_run`, the queue as a list of jobs, the solver run of MMain.v inside a directory; words in `LaunchSpec.v` | invariant over event lists: disk sound, waiting jobs' directories distinct and clean; `main_grows`: a run only appends to files with output names |
| C89 | `MCrash.v`: the trace of appends of the driver, the disks a kill can leave (`killed`: between two appends, or a front part of one) | trace proved equal to what `main` leaves (C89_trace); closed form of the trace by the loop invariant of C48; distinct file names |
| C90 | `MDerived.v`: `set_derived_params` on doubles (SpecFloat), Python's `int`, `/`, `min`; `pow(n,-2)` a parameter with relative error 2^-52 | monotonicity of rounding and the error bound 2^-53 nt < 1 for the stride; interval bounds (`ap`) for dt and nt |
| C91 | two grids and two parameter sets related by a factor (real arithmetic), `MGrid`, `MEom`, `MInit` | closed forms of the stencils/Chebyshev derivative and of the radial tables; scaling of the 17 coefficients; induction over the steps; the pulse by a simulation of its loops; a refutation for tiny units |
| C92 | `MCheb` over the reals (FFTW by definition) | closed form of the derivative in the Chebyshev coefficients; |U_{k-1}| <= k and |coefficients| <= 2 max|v| give the operator norm; linearity + C17 exactness; Taylor polynomial centred at each node; factorial beats geometric growth |
| C93 | `p_rhs`, `set_k`, `time_step` over the IEEE doubles (`SpecFloat`) | NaN/infinity propagation by cases; the `ap` error calculus of C81/C85 with divisions bounded away from 0; the closed form of the step; a run computed by the kernel for f = 1 and f = -1 |
| C94 | `Eom_make`, `set_k`, `time_step`, `set_rho` and the driver over the IEEE doubles | sign of the rounded radicand (m-a)(m+a) by the error bounds of C85, NaN propagation, surjectivity of the grid index (C01), lifted to the driver through C51/C48; a parameter file with m = 1/2, a = 1 read by the modelled `stod` |
| C95 | every routine reached from `main`, over two builds, two schedules and two libraries related by `relaid` | relational induction: each loop over a sphere or a grid produces the same value at the same point (`same_sphere`, `same_field`), spectra and files are equal; assertions: an Ok result with assertions is the result without; lifted to the driver by its invariant (C51); the diagnostics over R through the closed sums of C25 and a permutation of the index set |
| C96 | `fd_der`, `fd_der2`, `cheb_der`, grid operators, `set_k`, `set_rho`, `time_step`, main loop (any arithmetic) | a reach relation on shell indices (SpreadSpec); each operator is local in it, the time step by composition of four stages, j steps by induction; window and cone bounds by arithmetic; the Chebyshev counterexample is the polynomial whose roots are all but the last three nodes, through C17. |
| C97 | `set_k`, `time_step`, main loop over the reals, linear transforms | curves of states through zero with their derivative at zero; a linear operator on lists is a matrix, so it maps curves to curves; sphereX is a quadratic form, so its derivative is zero; the slope is differentiated with k, k', V'; composition through the four stages, induction on steps; the derivative is the free theory's slope. |
| C98 | `cheb_filter`, `grid_filter`, `total_variation` over the reals | the filter multiplies mode l by exp(-40 (l/n)^16); on two modes with opposite end slopes the third loses more than the first gains, by 1-y <= exp(-y) <= 1/(1+y); the sums of absolute differences of monotone data telescope |
| C99 | `FD_make`, `fd_pt`, `cheb_pt` through `rad_make`/`rad_pt`; over the reals and over `b64` | positions are lower + (upper-lower) i/(n-1), or its cosine, strictly monotone; divisibility. In doubles: rounding commutes with powers of two outside the subnormal range, so the refined spacing is the old one divided by 2^m, the product with the index is the same double, and so is the sum |
| C100 | `MBuild.v`: the tree (file texts, time stamps, objects with the options and texts they were compiled from, executables) and its events | invariant over histories: an object not older than a prerequisite has seen its present text, and its options are in the list since the last clean; then the two to four invocations of config.py and then_recompile |
| C101 | all functions with assertions, `ndebug` false | case by case: every assertion before the failing one passes or stops the program itself |
| C102 | `MLaunch.v`, `MSlurm.v`; how sbatch and the shell read a script is described in `PropSlurm.v` (options before the first command, `export`, values without blanks, quotes or newlines) | setattr keeps a dictionary's names distinct; the solver only writes its output files and out.txt; reading back a parameter file as in C52; the script's list of lines is unique, so it is the written one; "_" separates the parts of an automatic name |
| C103 | `time_step`, `set_k`, `set_rho`, all grid operators, `norm_indep_res`, `total_variation` over the IEEE doubles, library functions arbitrary | relational proof: two runs side by side (`rr`, FlipOps.v, for any arithmetic and any relation kept by the linear operations); `rel` (FpSign.v) is kept by IEEE addition, multiplication, division, powers; the even and odd parts of the right-hand side by hand; which values are special (1 and -1) by Flocq's error bounds; the case is a two-step run on 8 x 1 x 3 points decided by the kernel |

Properties that are false of the code are kept, stated as what the code does, with a `_refuted`
theorem for the claim a reader of the code or documentation would make.

## 3. Trusted base

* Coq 8.16.1's kernel (including `vm_compute`, used for binary64 and string examples).
* `Print Assumptions`: `ASSUMPTIONS.md` (generated by `tools/assumptions.py`) lists it for every theorem.
  The only axioms that occur are the standard library's
  `ClassicalDedekindReals.sig_forall_dec`, `ClassicalDedekindReals.sig_not_dec` (real numbers),
  `Classical_Prop.classic`, `FunctionalExtensionality.functional_extensionality_dep`.
  (A checker that expands module types also lists the fields of `RbaseSymbolsImpl`, `RinvImpl` and
  `ssrunder.Under_rel`, which are opaque modules of the standard library.)
  No axiom is added; there is no `Admitted`, `Variable` or `Hypothesis` outside a section, no functor.
* Coquelicot is used for derivatives and Flocq for IEEE rounding (C81, C82, C85); their theorems are proved from the same axioms.
* The transcription of the C++/Python sources into Gallina, by reading.
* The specification files named above.

## 4. What is assumed of code outside /repo

* **SHTns**: a configuration is a record of sizes, nodes and four transform functions. Its contract is an
  explicit hypothesis where needed: `shapes` (array sizes), `lawful` (real transforms: synthesis samples
  the sum of harmonics, analysis inverts it on real band-limited data; nothing is assumed about other
  data), `clawful` (same, complex, mmax = lmax) and `tlawful` (complex, mmax <= lmax, with the layout of
  SHTns's macro `LM_cplx`). `C28_contract_satisfiable` and `C71_contract_satisfiable` construct transforms
  meeting these contracts with the true spherical harmonics at every resolution.
  The position macro `LM` and `nlm_calc` are transcribed from SHTns's documentation.
* **FFTW**: `REDFT00` is its documented sum for n >= 2, planning fails for n < 2; alignment is not modelled.
* **iostream/strings**: `>>`, `getline`, `stoi` as specified by the standard; `stod` and the formatting
  of doubles are arbitrary functions (parameters of the model) in every property except C86 and C87, which
  instantiate them by `fmt16` (`%.16g`, correctly rounded, ties to even) and `stod64` (C `strtod`, correctly
  rounded; hexadecimal texts and the sign of a NaN are not modelled), see `MFmt.v`; the file system is a map from names to
  contents plus a predicate telling which names can be opened.
* **OpenMP**: sequentially consistent interleaving of single array accesses; reductions add the threads'
  partial sums in an arbitrary order with an arbitrary assignment of iterations to threads.
* **Python**: exact real arithmetic for the derived parameters (`int(x)` truncates).
* GNU make: a target is remade when it is missing or older than a prerequisite, with the recipe of the matching pattern rule; nothing
  is assumed about which intermediate files it deletes (C100).

## 5. Not modelled

`unit_manager.{hpp,cpp}` (not in the Makefile's object list and does not compile: uses members that
do not exist); FFTW alignment requirements of the new-array
interface; memory exhaustion; rounding inside FFTW/SHTns/libm; `..`, symbolic links and
requeueing in the launcher (directory creation, launches and the job queue are modelled, C88); terminal formatting (`setw`); wall-clock output. `Exit` does not carry the file system:
that nothing is written before the parameter check is C54_only_there.
Stability of the full discretised PDE and accuracy for data that are not resolved are not stated:
no such property is claimed by the code.

## 6. Findings (each is a theorem)

* `set_rho` multiplies the kinetic part by 1/2 twice, and the cross term has the opposite sign of
  n^mu n^nu T_mu_nu (C41, C68).
* The metric printed in the documentation lacks sin^2(theta) (C70_printed_metric_refuted).
* `Grid::filter` performs no radial filtering: the filtered rows are written to a local buffer (C26).
* `Sphere` loops exclude l = lmax and m = mmax, so the edge modes bypass Laplacian, d/dphi and filter and
  make `sphereX` negative (C30, C33).
* With mmax < lmax, as in the shipped run script, `raise`/`lower` mis-address degrees above mmax and may use
  memory that was never written (C71).
* `compact_pulse` skips shell nx-1 as "infinity"; in Chebyshev builds it is the horizon (C63).
* `Cheb::der` drops the two highest modes (C18); `to_po` destroys its argument (C16).
* `R_to_r(cl)` = 1e12 is not the largest value of R_to_r (C22).
* The Kreiss-Oliger filter is not TVD for n >= 9 (C12).
* Neither is the Chebyshev filter (every n >= 4) nor the grid filter (every nl >= 4), although the tests `filter_is_TVD` and `test_tvd` suggest so (C98).
* Doubling `nx` (rather than 2 nx - 1) gives a radial grid that shares only its end points with the old one (C99).
* `total_variation` ignores grid lines (C27); `write_n_psl` loses negative coefficients (C69).
* A missing parameter ends the program with status 0 (C54); negative integers wrap (C55); output is appended
  on re-runs (C57); the save stride can be zero and crash the driver (C49).
* In doubles the launcher's nt steps can exceed the requested evolution time (C90_steps_fit_refuted).
* The absolute tolerance 1e-16 on the spin breaks the change of units: with M < 2e-16 a black hole of spin M/2 is taken for extremal (C91_tiny_units_refuted).
* A newline in walltime, memory or e-mail address adds commands to the job script (C102_injection_refuted).
* An `output_dir` given without a leading slash makes the local launcher write to a sibling directory `Output<x>`, and
  launching the same `Sim` object twice nests the whole first path below `Output` (C88_named, C88_same_object).
* `set_row_ph`, `get_row_R_ph` use the wrong sizes (C04, C05); `compute_ylm` with m > l aliases (C35).
* A field value of exactly -1 turns into NaN in every theory, also the canonical one (km1/(f+1) = 0/0), while +1 does not:
  the sign symmetry is lost in double precision (C93_minus_one_time_step, C93_sign_symmetry_refuted).
* A spin larger than the mass is not rejected anywhere in the C++ program: the run completes normally with NaN in every entry of
  both fields from the first step on (C94_run, C94_files).  (The Python launcher computes the horizon with `pow(1-(a/m)**2,0.5)`, which is a
  complex number there; that line is modelled over the reals only.)
* **C100**: the object rule does not depend on the options.  `config.py` runs make twice with different `-D` options and no
  clean in between; it works because GNU make happens to delete the objects as intermediate files, all but `finite_diff.o`,
  which is listed twice in `OBJ` (observed with a stub compiler) and does not test `USE_CHEB` (C100_config_ok,
  C100_config_refuted for other survivors).  It does test `NDEBUG`: a debug build after a release build keeps the
  finite difference assertions off (C100_debug_refuted).  `recompile=True` runs `make clean_obj<bin>`, which is no clean
  target but matches `%.run`, and `make <bin>` without variables: `default_cheb.run` becomes a finite difference program
  with the other longitude layout (C100_recompile).  `make test` puts `cheb.o` and `sphere.o` (listed twice, so not deleted), compiled
  with its own options and without dependence on headers, into Source: the test program can be stale
  (C100_test_current_refuted), and a recompile then links a contiguous sphere unit with a strided grid unit
  (C100_test_then_recompile_refuted).

## 7. Mutation testing

`seeded/LOG.jsonl` records every wrong program tried (one edit of the model each) with the theorems that
failed and those that were tightened because they survived.
