{"id": "C01", "title": "Grid indexing is a bijection in both memory layouts", "statement": "For either angular layout, indx_R_th_ph maps the grid points (ix,it,ip) with ix<nx, it<nlat, ip<nphi one-to-one onto exactly the indices 0..nx*nlat*nphi-1, so no two grid points share a cell and no cell is unused; if nx*nlat*nphi fits in a size_t, the value is the same when every intermediate product and sum is taken modulo 2^64.", "quantifier": "all nx, nlat, nphi, both layouts, all grid points", "why_tests_cant": "tests use a handful of grid shapes; collisions and overflow depend on the sizes", "anchors": ["Source/grid.hpp:Grid::indx_R_th_ph", "Source/sphere.hpp:Sphere::indx"]}
{"id": "C02", "title": "A radial shell of a grid function is laid out as the sphere transform expects", "statement": "The shell ix of a 3d grid function is the contiguous block starting at nlat*nphi*ix, and inside it the point (it,ip) is at the offset Sphere::indx(it,ip) and Grid::indx_th_ph(it,ip); the two classes agree in both layouts, and the 2d maps indx_r_th, indx_r_ph, indx_r_l and indx_th_ph are one-to-one onto their ranges.", "quantifier": "all sizes, both layouts, all grid points", "why_tests_cant": "agreement of two independently written index formulas must hold at every size", "anchors": ["Source/grid.hpp:indx_th_ph", "Source/grid.hpp:indx_r_l", "Source/sphere.hpp:indx"]}
{"id": "C03", "title": "Row extraction and insertion are exact and touch nothing else", "statement": "For radial lines, theta lines, whole spheres, (R,theta) planes, (R,phi) planes (setter), coefficient columns and l-rows: setting a row and then getting it returns exactly what was written; every cell outside the row keeps its value; getting a row never changes the source; all accesses are in bounds.", "quantifier": "all sizes, both layouts, all rows, all array contents", "why_tests_cant": "a frame property over every cell of arrays of every size", "anchors": ["Source/grid.hpp:get_row_R", "Source/grid.hpp:set_row_R", "Source/grid.hpp:get_row_th_ph", "Source/grid.hpp:set_row_th_ph", "Source/grid.hpp:set_row_l", "Source/grid.hpp:set_row_n", "Source/grid.hpp:get_row_n"]}
{"id": "C04", "title": "What Grid::set_row_ph really writes", "statement": "set_row_ph is documented by its name and its size assertions to store a whole phi line of nphi values. Its loop runs over nlat values instead: it is right exactly when nlat=nphi; when nlat<nphi the last nphi-nlat values are silently not stored; when nlat>nphi it reads past the end of the input (undefined behaviour).", "quantifier": "all sizes, both layouts, all rows and contents", "why_tests_cant": "depends on nlat versus nphi; the shipped tests use nlat=nphi", "anchors": ["Source/grid.hpp:set_row_ph"]}
{"id": "C05", "title": "What Grid::get_row_R_ph requires of its output buffer", "statement": "get_row_R_ph fills nx*nphi cells but its size assertion demands nx*nlat. With a buffer of the asserted size it writes out of bounds when nlat<nphi; with a correctly sized buffer a debug build aborts whenever nlat<>nphi (nx>0) while a release build returns the right plane.", "quantifier": "all sizes, both build modes, all contents", "why_tests_cant": "depends on nlat versus nphi and on NDEBUG", "anchors": ["Source/grid.hpp:get_row_R_ph"]}
{"id": "C06", "title": "The coordinate tables describe the grid point they are indexed by", "statement": "After construction R_th_ph, x_y_z, th_ph and R_l (and n_l in Chebyshev builds) return, at the index of a grid point, that point's (R,theta,phi), its Cartesian coordinates R(cos phi sin theta, sin phi sin theta, cos theta), (theta,phi), (R,l) and (n,l); the Euclidean length of x_y_z is |R|. Explicitly R is Rmin+ix(Rmax-Rmin)/(nx-1) in finite-difference builds and the ix-th Chebyshev-Lobatto point, from Rmax down to Rmin, in Chebyshev builds; theta is the arc cosine of the library's node and phi=2 pi ip/nphi.", "quantifier": "all sizes, layouts, node positions, all grid points", "why_tests_cant": "every table entry at every size, after nested overwriting loops", "anchors": ["Source/grid.cpp:Grid::Grid", "Source/grid.hpp:R_th_ph", "Source/grid.hpp:x_y_z"]}
{"id": "C07", "title": "FD::der is exact on polynomials of degree at most 6 at every grid point", "statement": "For every n>=7 and interval lower<>upper, applying FD::der to the samples of a polynomial of degree <=6 at pt(0..n-1) returns its derivative at every point, the three boundary points on each side included.", "quantifier": "all n>=7, all intervals, all polynomials of degree <=6, all grid points", "why_tests_cant": "floating tests check one function at two resolutions", "anchors": ["Source/finite_diff.cpp:FD::der"]}
{"id": "C08", "title": "FD::der2 is exact on polynomials of degree at most 7 at every grid point", "statement": "Same for FD::der2, n>=8 and degree <=7, with the second derivative.", "quantifier": "all n>=8, all intervals, all polynomials of degree <=7, all grid points", "why_tests_cant": "floating tests check one function at two resolutions", "anchors": ["Source/finite_diff.cpp:FD::der2"]}
{"id": "C09", "title": "FD::der and FD::der2 are sixth-order accurate for every smooth function", "statement": "If the 7th (8th for der2) derivative of f is bounded by M on [lower,upper] then at every grid point the error of FD::der is at most 44*M*dx^6 and that of FD::der2 at most 607*M*dx^6.", "quantifier": "all n, all intervals, all sufficiently differentiable f, all grid points", "why_tests_cant": "an error bound over a function space", "anchors": ["Source/finite_diff.cpp:FD::der", "Source/finite_diff.cpp:FD::der2"]}
{"id": "C10", "title": "When the finite-difference routines are memory safe", "statement": "With vectors of size n, FD::der completes without out-of-bounds access exactly when n>=7, FD::der2 exactly when n>=8, FD::filter exactly when n>=4 (size_t underflow of n-4 makes it run out of bounds below that); FD::filter is the identity for 4<=n<=8.", "quantifier": "all n (including 0..7, with size_t wrap-around), all contents, both build modes", "why_tests_cant": "needs every small size, and undefined behaviour is not observable by a test", "anchors": ["Source/finite_diff.cpp"]}
{"id": "C11", "title": "The Kreiss-Oliger filter preserves smooth data and damps every mode by a known factor", "statement": "FD::filter leaves the four points at each end unchanged, leaves samples of every polynomial of degree <=7 unchanged everywhere, and at the interior points multiplies the samples of cos(k i + d) by 1-sin(k/2)^8, which lies in [0,1], is 0 at the grid frequency and 1 only at multiples of 2 pi.", "quantifier": "all n, all polynomials of degree <=7, all frequencies and phases", "why_tests_cant": "a statement about all modes and all n", "anchors": ["Source/finite_diff.cpp:FD::filter"]}
{"id": "C12", "title": "FD::filter is not total-variation diminishing in general", "statement": "The test-suite asserts that the filter reduces total variation on one noisy sample. As a universal claim it is false: for every n>=9 there are data (an isolated spike next to the left boundary) whose total variation grows; for 4<=n<=8 the filter is the identity, so it is total-variation diminishing exactly for those n.", "quantifier": "all n>=4 (with a witness vector for each n>=9)", "why_tests_cant": "the shipped test suggests the opposite from one sample", "anchors": ["Source/finite_diff.cpp:FD::filter", "Test/test_finite_diff.cpp:filter_is_TVD"]}
{"id": "C13", "title": "FD operators are linear and respect reflection", "statement": "der, der2 and filter are linear in the data; reversing the data reverses der with a sign change and reverses der2 and filter.", "quantifier": "all n, all data, all scalars", "why_tests_cant": "universally quantified algebraic law", "anchors": ["Source/finite_diff.cpp"]}
{"id": "C14", "title": "The radial grid points", "statement": "FD::pt is equally spaced, strictly increasing, with pt(0)=lower and pt(n-1)=upper; Cheb::pt is strictly decreasing with pt(0)=upper and pt(n-1)=lower, symmetric about the centre; all points lie in [lower,upper].", "quantifier": "all n>=2, all lower<upper, all indices", "why_tests_cant": "for every n", "anchors": ["Source/finite_diff.cpp:FD::pt", "Source/cheb.cpp:Cheb::Cheb"]}
{"id": "C15", "title": "Chebyshev transforms are inverse to each other", "statement": "For every n>=2 and every vector, to_po after to_ch returns the vector and to_ch after to_po returns the coefficients; to_ch of the samples of T_k at the grid points is the k-th unit vector.", "quantifier": "all n>=2, all vectors, all k<n", "why_tests_cant": "for every size and every vector", "anchors": ["Source/cheb.cpp:Cheb::to_ch", "Source/cheb.cpp:Cheb::to_po"]}
{"id": "C16", "title": "Cheb::to_po consumes its coefficient argument", "statement": "to_po halves the interior entries of its (non-const) argument in place, so it does not leave the coefficients usable: calling to_po a second time with the same vector gives different values whenever an interior coefficient is non-zero and n>=3.", "quantifier": "all n, all coefficient vectors", "why_tests_cant": "an aliasing/side-effect property", "anchors": ["Source/cheb.cpp:Cheb::to_po"]}
{"id": "C17", "title": "Cheb::der is exact on polynomials of degree at most n-3", "statement": "For every n>=3 and interval lower<>upper, Cheb::der applied to the samples of a polynomial of degree <=n-3 returns its derivative at every Chebyshev point.", "quantifier": "all n>=3, all intervals, all polynomials of degree <=n-3, all points", "why_tests_cant": "floating tests check one analytic function", "anchors": ["Source/cheb.cpp:Cheb::der"]}
{"id": "C18", "title": "Cheb::der discards the two highest Chebyshev modes", "statement": "An n-point Chebyshev derivative would be exact up to degree n-1. Cheb::der clears the last two coefficients before it copies them into the recurrence, so it returns 0 on the samples of T_{n-1} and T_{n-2} for every n>=3 (n>=4 for a non-constant T_{n-2}): the claim of exactness up to degree n-1 is refuted for every n.", "quantifier": "all n>=3", "why_tests_cant": "an exactness boundary that the smooth test function hides", "anchors": ["Source/cheb.cpp:Cheb::der"]}
{"id": "C19", "title": "Cheb::filter multiplies mode k by exp(-40 (k/n)^16)", "statement": "The filter maps the samples of T_k to exp(-40(k/n)^16) times themselves for every k<n, is linear, leaves constants exactly unchanged, and its factors lie in (0,1] and strictly decrease with k.", "quantifier": "all n>=2, all k, all vectors", "why_tests_cant": "for every mode and size", "anchors": ["Source/cheb.cpp:Cheb::filter"]}
{"id": "C20", "title": "Chebyshev routines need at least two points", "statement": "For n<2 no DCT plan exists: a debug build aborts in the constructor; a release build has undefined behaviour at the first transform, derivative or filter. For n>=2 all accesses are in bounds.", "quantifier": "all n, both build modes, all contents", "why_tests_cant": "undefined behaviour is not testable", "anchors": ["Source/cheb.cpp"]}
{"id": "C21", "title": "set_partial_r and set_partial2_r are derivatives with respect to r", "statement": "In the finite-difference build, if along every radial line v is g(R) with g a polynomial of degree <=6, set_partial_r returns d/dr g(R(r)) and set_partial2_r returns d^2/dr^2 g(R(r)) at every grid point other than spatial infinity, where R(r)=r/(1+r/cl); at R=cl both return 0. In the Chebyshev build the same holds for degree <=nx-3. For smooth g the finite-difference errors are bounded by constants times dx^6.", "quantifier": "all grids with nx>=8 (7; 2 for Chebyshev), all layouts, all per-line polynomials, all smooth functions", "why_tests_cant": "chain rule + stencils + indexing at every size", "anchors": ["Source/grid.cpp:Grid::set_partial_r", "Source/grid.cpp:Grid::set_partial2_r", "Source/grid.cpp:Grid::Grid"]}
{"id": "C22", "title": "Compactification used by the launcher and by the solver are inverse to each other", "statement": "R_to_r(compactification(r))=r for every r>=0 with the image further than 1e-16 from cl, compactification(R_to_r(R))=R for 0<=R<cl-1e-16, both strictly increasing there; within 1e-16 of cl R_to_r is 1e12, which is not the largest value it takes; and the tables dR/dr, d2R/dr2 are the first and second derivative of compactification.", "quantifier": "all cl>0 and radii", "why_tests_cant": "continuum of inputs, two languages", "anchors": ["Source/grid.hpp:R_to_r", "sim_class.py:compactification", "Source/grid.cpp:_dR_over_dr"]}
{"id": "C23", "title": "Grid operators act slice by slice", "statement": "set_partial_phi, set_spherical_lap, set_sphereX and Grid::filter apply the corresponding sphere operator to each radial shell separately; set_partial_R, set_partial_r and set_partial2_r act on each radial line separately: the value at a point depends only on the input on its own shell or line, and never on the previous content of the output array.", "quantifier": "all grids, layouts, inputs, previous contents", "why_tests_cant": "non-interference over all inputs", "anchors": ["Source/grid.cpp"]}
{"id": "C24", "title": "OpenMP loops give the same memory under every schedule", "statement": "For each parallel loop (angular operators, radial operators, in-place filter, power spectrum, n-l coefficients, shift, set_level) any interleaving of the individual memory reads and writes of the iterations, on any number of threads, ends in the same memory as running the iterations one after the other, and no two iterations access a common cell with at least one write.", "quantifier": "all interleavings, all grids, all contents, any arithmetic", "why_tests_cant": "schedules cannot be enumerated by tests", "anchors": ["Source/grid.cpp", "Source/field.cpp:Field::shift", "Source/scalar_eom.cpp:set_level"]}
{"id": "C25", "title": "Diagnostics under OpenMP reduction", "statement": "norm_indep_res and total_variation give the same value for every way of splitting and ordering the reduction when arithmetic is exact; in IEEE double precision they do not: there are data for which two schedules return different doubles.", "quantifier": "all partitions and orders of the reduction, all data; double-precision witness", "why_tests_cant": "schedule-dependent rounding", "anchors": ["Source/grid.cpp:norm_indep_res", "Source/grid.cpp:total_variation"]}
{"id": "C26", "title": "Grid::filter performs no radial filtering", "statement": "The documentation says a radial filter (Chebyshev low-pass or Kreiss-Oliger) is applied with boundary values kept. Grid::filter in fact equals the angular filter on every shell: its radial pass writes back exactly what it read, so purely radial data are changed only by the angular filter, and data that the radial filter would change are left alone.", "quantifier": "all grids, both radial schemes, all data, any arithmetic", "why_tests_cant": "the TVD test passes thanks to the angular filter alone", "anchors": ["Source/grid.cpp:Grid::filter", "Documentation/main.tex:sec:code_description"]}
{"id": "C27", "title": "total_variation and norm_indep_res as diagnostics", "statement": "norm_indep_res is 0 exactly when f_np1=f_n+dt*p at every point, is never negative and equals the root mean square residual; total_variation is never negative, is 0 on constants, is unchanged by adding a constant, scales with |c|, but is blind to the boundary lines where two indices are maximal (it is 0 on some non-constant data), so tv=0 does not imply constant.", "quantifier": "all grids, all data", "why_tests_cant": "for all data", "anchors": ["Source/grid.cpp:norm_indep_res", "Source/grid.cpp:total_variation"]}
{"id": "C28", "title": "Sphere::partial_phi is d/dphi on resolved data", "statement": "If f is band limited with l<nl and m<nm, partial_phi returns the derivative of f with respect to phi at every grid point.", "quantifier": "all nl, nm, nlat, nphi the transform supports, all such f, all points", "why_tests_cant": "continuum of functions, all sizes", "anchors": ["Source/sphere.cpp:partial_phi"]}
{"id": "C29", "title": "Sphere::laplace_beltrami multiplies each resolved harmonic by -l(l+1)", "statement": "For every l<nl and m<nm (m<=l), laplace_beltrami applied to the real harmonic of degree l and order m (and by linearity any combination of them) returns -l(l+1) times it; consequently, when the transforms are the spherical-harmonic ones, the result at every grid node off the poles is the value of the differential operator (1/sin) d_theta(sin d_theta f) + (1/sin^2) d_phi d_phi f.", "quantifier": "all sizes, all l<nl, m<nm, all combinations", "why_tests_cant": "all modes", "anchors": ["Source/sphere.cpp:laplace_beltrami", "Source/sphere.cpp:Sphere::Sphere"]}
{"id": "C30", "title": "The highest resolved harmonics bypass every spectral operator", "statement": "The transform resolves l=nl and m=nm inclusively, but the loops stop before them. For every harmonic with l=nl or m=nm: laplace_beltrami, partial_phi and filter return it unchanged (eigenvalue +1 instead of -l(l+1), derivative equal to the function, damping factor 1 although lower modes are damped), and power_spectrum does not report order m=nm at all.", "quantifier": "all sizes, all modes with l=nl or m=nm", "why_tests_cant": "hidden at the spectral edge", "anchors": ["Source/sphere.cpp:laplace_beltrami", "Source/sphere.cpp:partial_phi", "Source/sphere.cpp:filter", "Source/sphere.cpp:power_spectrum"]}
{"id": "C31", "title": "Sphere::raise and Sphere::lower compute the documented ladder coefficients", "statement": "For l<nl and |m|<=l the in-place loops turn coefficients f_{l,m} into sqrt((l-m+1)(l+m)) f_{l,m-1} (zero at m=-l) and sqrt((l+m+1)(l-m)) f_{l,m+1} (zero at m=l), with the mixed size_t/int index and factor expressions evaluated modulo 2^64; coefficients with l=nl are left as they were; every access is in bounds. For the spherical harmonics the result samples exp(+-i phi)(+-d_theta + i cot(theta) d_phi) f.", "quantifier": "all nl<2^31, all l, m, all coefficients", "why_tests_cant": "in-place update order and unsigned wrap for all l,m", "anchors": ["Source/sphere.cpp:raise", "Source/sphere.cpp:lower"]}
{"id": "C32", "title": "Ladder algebra", "statement": "On coefficients with l<nl: raise-lower minus lower-raise equals 2m, and raise-lower equals l(l+1)-m(m-1), i.e. minus the Laplacian table entry plus m - m^2.", "quantifier": "all l<nl, all m, all coefficients", "why_tests_cant": "algebraic law over all modes", "anchors": ["Source/sphere.cpp:raise", "Source/sphere.cpp:lower", "Source/sphere.cpp:Sphere::Sphere"]}
{"id": "C33", "title": "sphereX is a non-negative squared gradient on resolved data but not at the spectral edge", "statement": "For real data with no l=nl component sphereX = |L+ f|^2 + (partial_phi f)^2 >= 0 at every point, which for the spherical harmonics is (d_theta f)^2 + (d_phi f)^2/sin^2(theta), and the product L+f L-f is real; for data of degree l=nl only it returns 0 whatever their gradient, and for data g+e (e the degree-nl part) it returns |L+ g|^2 + (partial_phi g)^2 + 2 e partial_phi g, which can be negative.", "quantifier": "all sizes, all such data", "why_tests_cant": "sign for all data", "anchors": ["Source/sphere.cpp:sphereX"]}
{"id": "C34", "title": "power_spectrum", "statement": "p[l] = |f_{l0}|^2 + 2 sum_{1<=m<min(l+1,nm)} |f_{lm}|^2 for every l<nl: the sum over all orders -l..l for a real function with no m>=nm content; never negative; independent of previous content of p.", "quantifier": "all sizes, all data, all l", "why_tests_cant": "accumulating loop for all sizes", "anchors": ["Source/sphere.cpp:power_spectrum", "Source/grid.cpp:set_angular_power_spectrum"]}
{"id": "C35", "title": "compute_ylm", "statement": "For 0<=m<=min(l,nm), l<=nl compute_ylm returns the samples of the (doubled real part of the) harmonic with unit coefficient, all accesses in bounds, and distinct (l,m) use distinct coefficients; for m>l it silently returns a different harmonic or writes out of bounds.", "quantifier": "all sizes, all l, m", "why_tests_cant": "index arithmetic for all l,m", "anchors": ["Source/sphere.cpp:compute_ylm", "Source/initial_data.cpp"]}
{"id": "C36", "title": "Sphere::filter factors", "statement": "For l<nl, m<nm the filter multiplies the harmonic by lp(l)*lp(m), lp(i)=exp(-40(i/nl)^16) in (0,1], non-increasing in l and m; the monopole is unchanged.", "quantifier": "all sizes, all modes", "why_tests_cant": "all modes", "anchors": ["Source/sphere.cpp:filter"]}
{"id": "C37", "title": "The evolution right-hand side solves the documented field equation", "statement": "At every grid point with finite r, for every field value with k(f)<>0, the computed d p/dt is the unique value of the second time derivative for which Box psi + (k'/2k)(grad psi)^2 - V'/k = 0 with the ingoing Eddington-Finkelstein Kerr operators of the documentation; df/dt=p.", "quantifier": "all masses, sub-extremal spins, radii, angles, field values and derivatives, potentials", "why_tests_cant": "an algebraic identity in about 20 real variables", "anchors": ["Source/scalar_eom.cpp:Scalar_eom", "Source/scalar_eom.cpp:set_k", "Documentation/main.tex"]}
{"id": "C38", "title": "Delta is built from the horizon radii correctly", "statement": "For |a|<=m in every branch the code takes with exact inputs (a=0, |a|=m, generic), (1-rp/r)(1-rm/r) = (r^2-2mr+a^2)/r^2, rp>=rm>=0 are the horizon radii; Delta=0 at the horizon.", "quantifier": "all m>0, |a|<=m outside the tolerance windows, all r>0", "why_tests_cant": "continuum", "anchors": ["Source/scalar_eom.cpp:Scalar_eom", "sim_class.py:set_derived_params"]}
{"id": "C39", "title": "Coefficients at spatial infinity", "statement": "At the compactified point R=cl the coefficients take their limits: only the second radial derivative (coefficient 1), the potential (-1), -p^2 and (dr f)^2 remain; every coefficient is the limit of its finite-r value as r->infinity.", "quantifier": "all masses, spins, angles", "why_tests_cant": "a limit statement", "anchors": ["Source/scalar_eom.cpp:Scalar_eom"]}
{"id": "C40", "title": "k' and V' are the derivatives of k and V", "statement": "The k' used in set_k is the derivative of the k used in set_k and set_rho, and vprime*k is the derivative of the V used in set_rho, at every field value where they are defined.", "quantifier": "all parameters and field values", "why_tests_cant": "derivative identity over a continuum", "anchors": ["Source/scalar_eom.cpp:set_k", "Source/scalar_eom.cpp:set_rho"]}
{"id": "C41", "title": "What set_rho computes compared with the documented energy density", "statement": "set_rho returns one half of the documented kinetic energy density plus V: the factor 1/2 is applied twice; the documented formula is therefore refuted whenever the kinetic part is non-zero. Moreover the cross term p*dr_f in both has the opposite sign to n^mu n^nu T_mu_nu computed from the documented inverse metric and normal.", "quantifier": "all parameters, radii, angles, field data", "why_tests_cant": "algebraic identity", "anchors": ["Source/scalar_eom.cpp:set_rho", "Documentation/main.tex"]}
{"id": "C42", "title": "The reported energy density is never negative for healthy theories", "statement": "If k(f)>=0, V(f)>=0, m>=0, r>0 and (dphi f)^2 <= sin^2(theta) * sphereX then rho>=0.", "quantifier": "all parameters and data", "why_tests_cant": "an inequality over a continuum", "anchors": ["Source/scalar_eom.cpp:set_rho"]}
{"id": "C43", "title": "No incoming characteristic at either radial boundary", "statement": "The radial characteristic speeds of the evolution system built from the stored coefficients are real everywhere outside the horizon; at the horizon both are <=0 and the larger is 0, so nothing enters there; at infinity they tend to -1 and +1 in r, and in the grid coordinate R both tend to 0, so nothing enters there either.", "quantifier": "all m>0, |a|<=m, r>=r_+, all angles", "why_tests_cant": "continuum", "anchors": ["Source/scalar_eom.cpp:Scalar_eom", "Documentation/main.tex"]}
{"id": "C44", "title": "time_step is one classical RK4 step of the filtered state", "statement": "time_step filters f.n and p.n and then sets np1 to the classical fourth-order Runge-Kutta update of the filtered state with the right-hand side set_k, although levels and slopes share buffers; the evaluation order of every operation is fixed, so the identity holds for floating point too.", "quantifier": "all grids, all states, any arithmetic; ring form for the reals", "why_tests_cant": "buffer reuse over all states", "anchors": ["Source/scalar_eom.cpp:time_step", "Source/scalar_eom.cpp:set_level"]}
{"id": "C45", "title": "time_step depends on nothing but the current level", "statement": "The new level np1 after time_step is independent of the previous contents of l, k, np1 and of all scratch arrays of Scalar_eom; f.n, p.n end up filtered; sizes are preserved; the slopes computed for a stage depend only on the two input arrays.", "quantifier": "all states that agree on f.n, p.n", "why_tests_cant": "history independence", "anchors": ["Source/scalar_eom.cpp:time_step", "Source/scalar_eom.cpp:set_k"]}
{"id": "C46", "title": "set_level with an invalid level and Field::shift", "statement": "set_level with a level outside 1..5 prints an error and changes neither field; shift copies np1 to n for every cell and changes nothing else.", "quantifier": "all levels, all states", "why_tests_cant": "all ints", "anchors": ["Source/scalar_eom.cpp:set_level", "Source/field.cpp:shift"]}
{"id": "C47", "title": "The vacuum is a fixed point", "statement": "If k0+km1<>0, f=0 and p=0 everywhere is left unchanged by time_step, whatever the grid and potential.", "quantifier": "all grids, parameters, numbers of steps", "why_tests_cant": "for all parameters and steps", "anchors": ["Source/scalar_eom.cpp"]}
{"id": "C48", "title": "Which time levels are written and under which index", "statement": "The driver writes save index 0 for the initial data and save index k, for every k>=1 with k*t_step_save<nt, exactly once, in increasing order, and what it writes there is the state after k*t_step_save time steps; nothing else is written. Each save also prints one diagnostics line holding the physical time, the norm of the independent residual (of the saved level against the filtered previous level) and the total variation of the saved state.", "quantifier": "all nt, t_step_save>=1, all initial data, any time-step function", "why_tests_cant": "for all nt and save strides", "anchors": ["Source/main.cpp:main"]}
{"id": "C49", "title": "Division by zero in the save stride and the launcher's guard against it", "statement": "With t_step_save=0 the driver divides by zero at the first step (undefined behaviour) whenever nt>=2; the launcher never writes t_step_save=0.", "quantifier": "all nt; all launcher settings with nt>=0, num_saved_times>=1", "why_tests_cant": "needs all settings", "anchors": ["Source/main.cpp:main", "sim_class.py:set_derived_params"]}
{"id": "C50", "title": "Number of outputs requested and obtained", "statement": "With the launcher's t_step_save, a run with nt>=1 produces at least min(nt,num_saved_times) and at most 2*num_saved_times-1 outputs, and exactly nt of them when nt<num_saved_times.", "quantifier": "all nt, num_saved_times>=1", "why_tests_cant": "integer division over all values", "anchors": ["sim_class.py:set_derived_params", "Source/main.cpp:main"]}
{"id": "C51", "title": "The driver state after j steps is the j-fold iterate of the step", "statement": "After j iterations of the loop n and np1 hold the j-fold iterate of (filter; RK4) applied to the initial data, so continuing a run for more steps extends it without changing earlier outputs.", "quantifier": "all j, all initial data", "why_tests_cant": "history property", "anchors": ["Source/main.cpp:main", "Source/field.cpp:shift"]}
{"id": "C52", "title": "Parameter files written by the launcher are read back exactly", "statement": "For every parameter set written by write_sim_params (distinct names without blanks; no newlines), looking up a name returns its value if the value has no white space, otherwise its first word (of a list the first element); integers in the int range come back as the same number, and if all parameters the solver asks for are present the whole Params object holds exactly the values written, whatever other attributes the launcher wrote.", "quantifier": "all parameter lists, all orders, all values", "why_tests_cant": "parsing round trip over all strings", "anchors": ["Source/params.cpp:_read", "sim_class.py:write_sim_params"]}
{"id": "C53", "title": "Lookup takes the first line whose name is the whole key", "statement": "_read returns the first blank-delimited word after the name on the first line whose text before the first space equals the key; keys that are prefixes of others are not confused; values are cut at the first whitespace.", "quantifier": "all files, all keys", "why_tests_cant": "all strings", "anchors": ["Source/params.cpp:_read"]}
{"id": "C54", "title": "A missing parameter ends the program with exit status 0", "statement": "If a required key is absent (and the present ones can be converted) the process ends with exit status 0, i.e. reports success; it never starts evolving. Conversely the process ends early or lets an exception escape only while reading the parameters, before any grid is built or any file is written. A parameter file that cannot be opened aborts a debug build and ends a release build with status 0.", "quantifier": "all files", "why_tests_cant": "control flow over all files", "anchors": ["Source/params.cpp:_read", "Source/main.cpp:main"]}
{"id": "C55", "title": "Integer parameters: what is accepted", "statement": "stoi accepts a prefix: trailing text is ignored (1e3 is 1, 8193.7 is 8193), a negative integer becomes 2^64 minus its magnitude when stored in a size_t parameter, and text without digits or outside the int range raises an exception.", "quantifier": "all strings", "why_tests_cant": "all strings", "anchors": ["Source/params.cpp:Params::Params"]}
{"id": "C56", "title": "Output file names are unique", "statement": "Among the three kinds of file (NPsl, RPsl, XYZ) different (field name, kind, save index) triples give different file names, for all names, and the plain writer's names are unique among themselves, so no two outputs of a run share a file; a plain file collides with one of the kinds exactly when its field name ends in the kind's suffix. The conversion of the save index to int is harmless below 2^32.", "quantifier": "all names, all indices", "why_tests_cant": "all strings and ints", "anchors": ["Source/io.cpp"]}
{"id": "C57", "title": "Output is appended, never truncated", "statement": "Every writer leaves all other files unchanged and the previous content of its own file as a prefix; running twice in one directory therefore yields two headers and doubled rows rather than fresh files.", "quantifier": "all file-system states", "why_tests_cant": "all histories", "anchors": ["Source/io.cpp:write", "Source/io.cpp:write_R_psl", "Source/io.cpp:write_x_y_z"]}
{"id": "C58", "title": "Contents of the R-l spectrum files", "statement": "write_R_psl writes one header (if requested) and exactly nx*nl rows, the row for (ix,l) at position nl*ix+l containing R(ix), l and the base-10 logarithm of the power, floored at -16.", "quantifier": "all grids, all data", "why_tests_cant": "row bookkeeping for all sizes", "anchors": ["Source/io.cpp:write_R_psl"]}
{"id": "C59", "title": "write_x_y_z writes exactly the requested points", "statement": "A grid point is written if and only if vmin<|value|<vmax and rmin<R<rmax, in index order, with its Cartesian coordinates; with rmin, rmax equal to the grid's own bounds the first and last shell are always omitted.", "quantifier": "all grids, data, bounds", "why_tests_cant": "all data", "anchors": ["Source/io.cpp:write_x_y_z", "Source/io.cpp:magnitude"]}
{"id": "C60", "title": "Initial pulse has the requested amplitude", "statement": "If the un-normalised pulse exceeds 1e-16 somewhere, then after compact_pulse the maximum of |f| over the evaluated grid points is |amp|, attained; otherwise nothing is rescaled.", "quantifier": "all grids, parameters", "why_tests_cant": "max over all points of all grids", "anchors": ["Source/initial_data.cpp:compact_pulse"]}
{"id": "C61", "title": "Initial pulse has compact support", "statement": "After compact_pulse f and p vanish at every evaluated grid point with r<=rl or r>=ru.", "quantifier": "all grids, parameters", "why_tests_cant": "all points", "anchors": ["Source/initial_data.cpp:compact_pulse"]}
{"id": "C62", "title": "Ingoing/outgoing initial data are plus/minus the radial derivative", "statement": "For direction ingoing (outgoing) p is plus (minus) the exact r-derivative of the continuum pulse whose samples are f, times the same amplitude and harmonic; any other direction string gives p=0.", "quantifier": "all grids, parameters, direction strings", "why_tests_cant": "derivative identity", "anchors": ["Source/initial_data.cpp:compact_pulse"]}
{"id": "C63", "title": "The grid shell skipped by compact_pulse is at infinity only for finite differences", "statement": "compact_pulse leaves shell nx-1 unevaluated 'as r=infty there'. In finite-difference builds that shell is R=Rmax; in Chebyshev builds it is R=Rmin (the horizon), where f and p keep their old value (0) even if the pulse is non-zero there.", "quantifier": "all grids, both builds", "why_tests_cant": "order of nodes per build", "anchors": ["Source/initial_data.cpp:compact_pulse", "Source/cheb.cpp:Cheb::Cheb", "Source/finite_diff.cpp:pt"]}
{"id": "C64", "title": "Launcher-derived radial domain", "statement": "For |spin|<=mass, cl>0 the launcher's Rmin is the compactified outer horizon, Rmin<Rmax=cl, the solver's R_to_r(Rmin) is the horizon r_+ where Delta vanishes; the inner shell of the grid is the horizon, the outer one is infinity, no shell lies inside the horizon, and on the inner shell the stored coefficient of the second radial derivative is zero, so one characteristic speed is 0 and the other negative.", "quantifier": "all masses, spins, cl", "why_tests_cant": "continuum, two languages", "anchors": ["sim_class.py:set_derived_params", "Source/grid.hpp:R_to_r", "Source/scalar_eom.cpp:Scalar_eom"]}
{"id": "C65", "title": "Whole-program safety", "statement": "With parameters for which the library serves the requested sizes, at least 8 (finite differences) or 2 (Chebyshev) radial points, an existing harmonic and a save stride of at least 1, the whole program runs to its end: no assertion fails, no array is accessed out of range, no integer is divided by zero, no exception escapes, whether or not the output files can be opened.", "quantifier": "all such parameters, all numbers of steps, debug and release builds, both radial grids, both layouts, every thread schedule of the reductions, every file system, any arithmetic", "why_tests_cant": "all inputs, histories and schedules", "anchors": ["Source/main.cpp:main", "Source/scalar_eom.cpp", "Source/grid.cpp", "Source/initial_data.cpp", "Source/io.cpp"]}
{"id": "C66", "title": "Launcher-derived time step and number of steps", "statement": "The launcher's dt is positive and at most 6/max(nlat,nphi)^2; with Chebyshev nodes it is 6/max(nx,nlat,nphi)^2, with finite differences dt*(Rmax-Rmin) is at most cfl times the solver's radial grid spacing; nt steps fit into the requested evolution time and nt+1 do not.", "quantifier": "all sizes, cfl>0, all evolution times and masses", "why_tests_cant": "continuum, two languages", "anchors": ["sim_class.py:set_derived_params", "Source/finite_diff.cpp:FD::FD"]}
{"id": "C67", "title": "On resolved data the right-hand side of the evolution equations is exact", "statement": "Take any function psi that is a finite sum of spherical harmonics of degree below nl and at most nm and order below nm, with (nl-nm)^2<=nl+nm+1, whose coefficients are polynomials in the compactified radius of degree below 7 (finite differences) or nx-2 (Chebyshev), and any pi that is such a polynomial at fixed angles. If the arrays hold their values on the grid, then one right-hand-side evaluation succeeds whatever its scratch arrays hold, the first slope is pi, and at every grid point outside r=0 and at finite radius the second slope is the unique number solving the documented field equation with the exact derivatives of psi and pi; at r=infinity it is -k'/(2k) pi^2 - V'/k.", "quantifier": "all such functions, all grid sizes, masses, spins, couplings, both radial grids, both layouts", "why_tests_cant": "continuum functions, all resolutions", "anchors": ["Source/scalar_eom.cpp:set_k", "Source/grid.cpp:set_partial_r", "Source/grid.cpp:set_partial2_r", "Source/grid.cpp:set_partial_phi", "Source/grid.cpp:set_spherical_lap", "Source/grid.cpp:set_sphereX"]}
{"id": "C68", "title": "Energy density of resolved data", "statement": "For arrays sampling a resolved psi (as in C67) and any pi, set_rho returns at every grid point at finite radius V + (rho - V)/2 where rho is the documented density evaluated with the exact derivatives, and V + k pi^2/4 at infinity; it is non-negative wherever k>=0 and V>=0.", "quantifier": "all such functions, all grid sizes, masses, spins, couplings", "why_tests_cant": "continuum functions, all resolutions", "anchors": ["Source/scalar_eom.cpp:set_rho"]}
{"id": "C69", "title": "Radial/angular spectrum of Chebyshev builds", "statement": "set_n_l_coef returns, for every degree l<nl, numbers c_{n,l} such that sum_n c_{n,l} T_n equals the square root of the angular power of degree l at every radial node, whatever the output array held; write_n_psl appends one row n, l, log10(c_{n,l}) per pair in order, clipped at -16. As no absolute value is taken, every negative coefficient, however large, is written as -16, indistinguishable from zero: for each grid there are data whose coefficient of T_1 is -1 and whose row says -16.", "quantifier": "all data, all Chebyshev grids, all file systems", "why_tests_cant": "all data", "anchors": ["Source/grid.cpp:set_n_l_coef", "Source/io.cpp:write_n_psl"]}
{"id": "C70", "title": "The equation solved is the field equation of the documented action on Kerr spacetime", "statement": "In the coordinates and conventions of the documentation the inverse metric used by the code is the inverse of the Kerr metric in horizon-penetrating (ingoing) coordinates with volume element Sigma sin(theta), the documented operator is its covariant wave operator, and a twice differentiable field satisfies the documented field equation at a point off the axis outside r=0 exactly when it satisfies the Euler-Lagrange equation of the action -1/2 k(psi) (d psi)^2 - V(psi); one right-hand-side evaluation on resolved data returns the second time derivative that this equation demands. The metric printed in the documentation (without sin^2(theta) in the last term) is not the inverse of the inverse metric used.", "quantifier": "all masses, spins, couplings, points off the axis, all resolved data, both radial grids and layouts", "why_tests_cant": "continuum variational statement", "anchors": ["Documentation/main.tex", "Source/scalar_eom.cpp:set_k", "Source/scalar_eom.cpp:Scalar_eom"]}
{"id": "C71", "title": "Fewer orders than degrees", "statement": "With mmax<lmax (the shipped run script uses nl=20, nm=18) SHTns stores complex coefficients of degree l>mmax at mmax(2l-mmax)+l+m, while raise and lower address l(l+1)+m. On data without content of degree above mmax (and of degree lmax or order mmax) raise, lower and sphereX still return the exact samples of L+, L- and the squared gradient, provided (lmax-mmax)^2<=lmax+mmax+1; but sphereX of the axisymmetric harmonic of degree mmax+1<lmax is too small by the factor sqrt(mmax(mmax+3)/((mmax+1)(mmax+2))) at every point, and when (lmax-mmax)^2>lmax+mmax+1 lower can use buffer cells that the transform never wrote.", "quantifier": "all mmax<=lmax, all grids, all such data, both layouts", "why_tests_cant": "all sizes, memory layout of an external library", "anchors": ["Source/sphere.cpp:raise", "Source/sphere.cpp:lower", "Source/sphere.cpp:sphereX", "runscript_template.py"]}
{"id": "C72", "title": "Superposition for the free equations", "statement": "With constant k (km1=k1=k2=0) and a quadratic potential (v3=v4=0) the evolution is linear: after any number of time steps, including filtering, the state started from a*u+c*w is a times the state started from u plus c times the state started from w, for both the field and its velocity (real arithmetic).", "quantifier": "all pairs of states, all real a and c, all numbers of steps, all grids, masses and spins, both radial discretisations and layouts", "why_tests_cant": "all pairs of histories", "anchors": ["Source/scalar_eom.cpp:time_step", "Source/scalar_eom.cpp:set_k", "Source/grid.cpp:filter", "Source/sphere.cpp"]}
{"id": "C73", "title": "Sign symmetry", "statement": "With couplings km1=k1=v3=0 (k and V even) evolving the negated data gives exactly the negated field and velocity after any number of steps, for arbitrary k0, k2, v2, v4 (real arithmetic).", "quantifier": "all states, all numbers of steps, all grids and all such couplings, both radial discretisations and layouts", "why_tests_cant": "all pairs of histories", "anchors": ["Source/scalar_eom.cpp:time_step", "Source/scalar_eom.cpp:set_k", "Source/grid.cpp:set_sphereX"]}
{"id": "C74", "title": "Rotational symmetry", "statement": "Rotating the initial field and velocity by any number of grid spacings about the spin axis gives the same evolution rotated by that amount, after any number of steps; hence data symmetric under such a rotation stay symmetric and axisymmetric data stay exactly axisymmetric (real arithmetic, transforms that respect the rotation, as a Fourier transform in phi does).", "quantifier": "all states, all rotations by grid spacings, all numbers of steps, grids, masses, spins and couplings, both radial discretisations and layouts", "why_tests_cant": "all pairs of histories", "anchors": ["Source/scalar_eom.cpp:time_step", "Source/scalar_eom.cpp:set_k", "Source/grid.cpp", "Source/sphere.cpp"]}
{"id": "C75", "title": "Equatorial reflection symmetry", "statement": "With latitudes placed symmetrically about the equator (as Gauss nodes are), reflecting the data at the equatorial plane gives the reflected evolution after any number of steps; data even under the reflection stay even, and with even k and V odd data stay odd (real arithmetic).", "quantifier": "all states, all numbers of steps, all grids, masses, spins and couplings, both radial discretisations and layouts", "why_tests_cant": "all pairs of histories", "anchors": ["Source/scalar_eom.cpp:time_step", "Source/scalar_eom.cpp:set_k", "Source/grid.cpp", "Source/sphere.cpp"]}
{"id": "C76", "title": "The time integrator is fourth-order accurate", "statement": "Let z solve exactly the ordinary differential equations u'=(slopes computed by one right-hand-side evaluation), starting from the filtered current level, at whose grid points k(psi) is defined and not zero. Then one time step of length dt stores in np1 arrays that differ from z(dt) by at most C dt^5 at every grid point, for all sufficiently small dt, with C and the bound on dt depending on the state but not on dt. Such z exist from every state when k is constant and V quadratic.", "quantifier": "all states with regular coupling, all exact solutions, all small step lengths, all grids, masses, spins and couplings, both radial discretisations and layouts", "why_tests_cant": "limit dt->0, all solutions of a system of differential equations", "anchors": ["Source/scalar_eom.cpp:time_step", "Source/scalar_eom.cpp:set_k", "Source/grid.cpp:filter"]}
{"id": "C77", "title": "The filter is not scaled with the step, so refining the step removes the angular structure instead of converging", "statement": "Constant k, quadratic V. Evolve the same data to the same final time T with N steps of length T/N, each of which applies the angular filter once. As N grows, the coefficient of every harmonic with 1<=l<nl, m<=l, m<nm tends to zero on every radial shell, in the field and in its velocity, whatever T, the data, the grid and the mass, spin and couplings (harmonics with l=nl or m=nm and the monopole are not damped). Consequently, if the data have such a harmonic, then for every small enough T the computed field does not converge, as the step length is refined on a fixed spatial grid, to the solution of the differential equations being integrated.", "quantifier": "all data, final times, harmonics, shells, grids, masses, spins and free couplings, both radial discretisations and layouts; limit of infinitely many steps", "why_tests_cant": "statement about a limit of runs with unboundedly many steps", "anchors": ["Source/scalar_eom.cpp:time_step", "Source/grid.cpp:filter", "Source/sphere.cpp:filter"]}
{"id": "C78", "title": "With finite differences the evolution equations are evaluated to sixth order in the radial spacing", "statement": "Fix the angular resolution, the compactification length, the radial interval, the black hole and the couplings, and let psi be a sum of resolved spherical harmonics whose coefficients are nine times differentiable functions of the compactified radius, pi a field nine times differentiable in the radius, with psi != -1 and k(psi) != 0 on the interval. Then there is one constant C such that for every number nx >= 8 of radial points a right-hand-side evaluation on the samples of (psi, pi) stores pi exactly as the slope of the field and, as the slope of the velocity, a number within C dx^6 of the second time derivative that the field equation on Kerr assigns to the exact derivatives of psi and pi, at every grid point at finite radius; at infinity the value is exact.", "quantifier": "all smooth resolved fields, all numbers of radial points (constant uniform in nx), all black holes, couplings, radial intervals, angular resolutions; finite-difference builds, both layouts", "why_tests_cant": "one constant for infinitely many grids, all smooth functions", "anchors": ["Source/scalar_eom.cpp:set_k", "Source/finite_diff.cpp:der", "Source/finite_diff.cpp:der2", "Source/grid.cpp:set_partial_r", "Source/grid.cpp:set_partial2_r"]}
{"id": "C79", "title": "In the free theory the azimuthal orders do not mix", "statement": "When k is constant and V quadratic, for every black hole mass and spin: if on every circle of constant radius and latitude the field and its velocity are of the form A cos(m phi) + B sin(m phi) (A, B depending on radius and latitude, m any integer), they are of that form with the same m after any number of steps. This holds for data of any angular or radial resolution, not only resolved ones, in both radial discretisations and memory layouts.", "quantifier": "all numbers of steps, orders m, data of that order, grids, masses, spins and free couplings, both builds and layouts", "why_tests_cant": "all data and numbers of steps", "anchors": ["Source/scalar_eom.cpp:time_step", "Source/scalar_eom.cpp:set_k", "Source/grid.cpp:set_partial_phi", "Source/grid.cpp:filter", "Source/sphere.cpp:partial_phi"]}
{"id": "C80", "title": "On a non-rotating black hole the harmonics evolve separately and spherical data stay spherical", "statement": "With spin 0: (i) when k is constant and V quadratic, the coefficient of each resolved spherical harmonic on every radial shell after any number of steps depends only on the initial coefficients of the same harmonic (field and velocity, all shells): two runs that agree in them initially agree in them for ever, whatever the rest of the data, resolved or not; (ii) data of the form u(r) Re(z Y_lm) keep that angular shape; (iii) for every k and V, data that depend on the radius only never acquire angular dependence.", "quantifier": "all numbers of steps, harmonics, data, grids, masses, couplings (free ones in (i), (ii)), both builds and layouts", "why_tests_cant": "all data and numbers of steps", "anchors": ["Source/scalar_eom.cpp:time_step", "Source/scalar_eom.cpp:set_k", "Source/scalar_eom.cpp:Scalar_eom", "Source/grid.cpp:set_spherical_lap", "Source/grid.cpp:set_sphereX", "Source/grid.cpp:filter"]}
{"id": "C81", "title": "Rounding error of the finite-difference operators in double precision", "statement": "In IEEE double precision with correctly rounded operations: applied to finite data bounded by V (2^-900 <= V <= 2^900) the first derivative, second derivative and radial filter complete without overflow or NaN, every entry is finite, and differs from the result of the same operator in exact arithmetic by at most 252*2^-52*V/dx, 2500*2^-52*V/dx^2 and 22*2^-52*V. Together with truncation: if the n >= 8 samples are within err of a smooth f, the computed first and second derivative are within 44 M7 h^6 + (28 err + 336*2^-52 V)/h and 607 M8 h^6 + (192 err + 3500*2^-52 V)/h^2 of f' and f'' at every grid point, M7 and M8 bounding the 7th and 8th derivative, also counting the rounding of the spacing itself in the constructor.", "quantifier": "all finite input arrays in range, all numbers of points, all spacings within the stated range, all smooth functions, all indices, both assert settings", "why_tests_cant": "all 2^64-valued inputs per entry", "anchors": ["Source/finite_diff.cpp:der", "Source/finite_diff.cpp:der2", "Source/finite_diff.cpp:filter", "Source/finite_diff.cpp:FD"]}
{"id": "C82", "title": "In double precision the diagnostics depend on the number of threads only through rounding", "statement": "In IEEE double precision, if the norm of the residual (or the total variation) computed with one assignment of iterations to threads is finite and not larger than 2^480 (2^960), then with every other assignment and order of combination it completes, is finite, and differs from the first by at most a fraction (2N+4)*2^-52 of it plus 2^-480, N the number of grid points (N <= 2^40).", "quantifier": "all input arrays of doubles (including those with infinities or NaN, which the premise excludes through the result), all pairs of schedules, all grid sizes", "why_tests_cant": "all schedules, all double inputs", "anchors": ["Source/grid.cpp:norm_indep_res", "Source/grid.cpp:total_variation"]}
{"id": "C83", "title": "The transforms between grid values and spherical-harmonic coefficients", "statement": "With arrays of the right sizes (nlat*nphi grid values; nlm real-transform coefficients, (lmax+1)^2 complex-transform coefficients) all four public transforms succeed; any other size aborts a build with assertions, and in a build without them a complex coefficient array of the size nYlm() reports is overrun. to_Sph returns the samples of the function whose coefficients it gets, to_Ylm the coefficients of the band-limited function it gets samples of, for real and complex data; round trips are the identity, except that imaginary parts of order 0 are dropped by the real pair; real data sent through the complex transform give the real transform's coefficients at m>=0 and (-1)^m times their conjugates at -m.", "quantifier": "all resolutions, all coefficient arrays, all band-limited real and complex functions, all array sizes for the abort, both layouts and assert settings", "why_tests_cant": "all data and sizes", "anchors": ["Source/sphere.cpp:to_Ylm", "Source/sphere.cpp:to_Sph"]}
{"id": "C84", "title": "Array-valued parameters", "statement": "Reading an array-valued parameter takes the first line of that name (the line the scalar reader takes), appends to the array the numbers at the start of its value, in order, and stops without notice at the first thing that is not a number; if no line has that name the program ends with exit status zero. A list of integers 0 <= z < 2^64 written by the launcher is appended exactly; a bad element drops itself and everything after it; an element with a fraction or exponent is cut there and the rest of the line dropped; a negative element wraps modulo 2^64. For doubles the round trip holds for every number extraction that reads back the launcher's words.", "quantifier": "all files, names, previous array contents, lists, extractions of doubles", "why_tests_cant": "all texts and lists of any length", "anchors": ["Source/params.cpp:_read_array", "sim_class.py:write_sim_params"]}
{"id": "C85", "title": "The coefficient tables and the radial nodes in double precision", "statement": "In IEEE double precision with correctly rounded operations (square for pow(.,2), square root for pow(.,0.5), any library cosine with finite values of modulus <= 1): for black holes with |a| <= m whose spin is not within 2e-16 of the code's two special cases unless it is one, cl >= max(1, 5m): (i) the launcher's horizon and inner boundary are within 4*2^-52*2m and a relative 36*2^-52 of the exact ones; (ii) the stored radial coordinates are the equally spaced ones to a relative 4*2^-52, strictly increasing, the first exactly the lower end; (iii) at every grid point each of the 17 coefficients is finite and within 410*2^-52, on its natural scale, of the documented Kerr coefficient at the stored coordinate; (iv) at the inner boundary the coefficient of the second radial derivative is at most 3400*2^-52 in modulus, so the boundary is characteristic to rounding, and at the last node all coefficients have their limits at infinity to rounding. The last stored coordinate need not be the compactification length: with mass 1/2, spin 0, cl=20 and 36 points it is larger and the program assigns it a negative areal radius.", "quantifier": "all masses, spins and compactification lengths in the stated ranges, all numbers of radial points up to 2^40, all angular resolutions, all library cosines, both layouts; node and table statements for finite-difference builds, the coefficient statement for any coordinate", "why_tests_cant": "all double inputs", "anchors": ["Source/scalar_eom.cpp:Scalar_eom", "Source/grid.hpp:R_to_r", "Source/finite_diff.cpp:pt", "Source/finite_diff.cpp:FD", "sim_class.py:set_derived_params", "sim_class.py:compactification"]}
{"id": "C86", "title": "The numbers in the output files", "statement": "The text the program writes for a finite double (operator<< with setprecision(16)) is a decimal numeral with at most 16 significant digits that denotes a number nearest to the double among all such numbers, off by at most 5e-16 of it; the order of numbers is preserved weakly, and doubles further apart than 5e-16 of their sizes get different texts; integers below 2^53 are written exactly as integer numerals. The text of any double, infinities and NaN included, is non-empty, at most 23 characters long and contains no comma or white space, so that every line of a value file is the text of the corresponding value and the comma-separated fields of every line of a spectrum file are exactly the text of the radial coordinate, the integer l and the text of the floored log10 of the power. Different radial nodes of a launched finite-difference run have different texts, increasing with the node. Sixteen digits do not identify a double (1 and 1+2^-52 get the same text), and a parameter such as 9.95 is printed as 9.949999999999999.", "quantifier": "all doubles, all files, all grids and data", "why_tests_cant": "all doubles, all data and files", "anchors": ["Source/io.cpp:write", "Source/io.cpp:write_R_psl"]}
{"id": "C87", "title": "The numbers read from the parameter file", "statement": "A decimal numeral in the parameter file that lies in the range of normal doubles is read (std::stod) as a double nearest to the number it denotes, to a relative 2^-53; numerals for zero give zero; numbers of 2^1024 and more, and numbers of at most half the smallest normal double that are no doubles, are rejected (exception). A numeral that is nearer to some double than to all others, in particular one with 17 significant digits, is read as exactly that double, so that all real parameters of a launched run are exactly the launcher's doubles. White space in front of a numeral and text behind it are ignored (1d-3 is read as 1), and a value that starts with no number is rejected. A number written to an output file and read back this way is within 7e-16 of the original, but need not be the original, and the largest doubles are written as texts that are rejected.", "quantifier": "all texts, all doubles, all launcher attribute lists", "why_tests_cant": "all texts", "anchors": ["Source/params.cpp:Params", "Source/params.cpp:_read", "sim_class.py:write_sim_params"]}
{"id": "C88", "title": "Launches and jobs never damage earlier results", "statement": "Over every history of launches (on the local machine or submitted to the queue) and job starts: a launch that returns has created a directory that did not exist before, and changes nothing outside it; a launch whose output directory already exists fails and changes nothing on the disk; no launch and no job changes or removes any file that exists, except that a job writes in the directory of its own launch; directories of waiting jobs are pairwise different and contain no output files; so each local run and each job leaves, in its directory, exactly one complete file per save for the field and for the energy density, with nothing in front. With output_dir = '/x' a local run is stored in Output/x; with output_dir = 'x' (no slash) in a sibling directory Outputx, and launching the same Sim object a second time nests the whole first path below Output.", "quantifier": "all histories of launches and job starts, all attribute lists, output directories, clocks, disks, permissions, executables", "why_tests_cant": "all interleavings and disk states", "anchors": ["sim_class.py:make_output_dir", "sim_class.py:write_sim_params", "sim_class.py:launch_run", "Source/main.cpp:main", "Source/io.cpp:write_R_psl"]}
{"id": "C89", "title": "A run killed at any moment", "statement": "If the process is killed at any moment, including in the middle of a write of which only a front part reaches the disk, then there is a number N such that the first N output files in the order f_0, rho_0, f_1, rho_1, ... are complete, the next one is untouched or holds a front part of its text behind its old contents, and all others and every other file are untouched. In particular every file found is a front part of the file the completed run leaves, rho_k is only present if f_k is complete, and f_k+1 only if rho_k is.", "quantifier": "all crash points between and inside writes, all parameter files, initial disks, schedules, numbers of saves", "why_tests_cant": "all crash points", "anchors": ["Source/main.cpp:main", "Source/io.cpp:write_R_psl"]}
{"id": "C90", "title": "The launcher's time step, number of steps and save stride in double precision", "statement": "In the launcher's arithmetic (Python floats are IEEE doubles): for 0 <= nt < 2^53 and 1 <= num_saved_times < 2^53 the save stride computed through a rounded division is exactly max(1, nt div num_saved_times); for evolution times, masses and steps between 2^-60 and 2^60 int(evolve_time*mass/dt) succeeds and the nt steps cover the requested time to within one step and a fraction 3*2^-52, differing from the exact count by at most one if that is below 2^50, but - unlike in exact arithmetic - nt*dt can exceed the requested time; dt is positive and within 3*2^-52 of its exact value if pow is off by at most one unit in the last place; the launcher stops with an exception for num_saved_times = 0 and for one radial point with finite differences.", "quantifier": "all doubles in the stated ranges, all integers below 2^53, all grid sizes up to 2^20", "why_tests_cant": "all doubles and integers", "anchors": ["sim_class.py:set_derived_params"]}
{"id": "C91", "title": "Choice of units", "statement": "Multiplying the black hole mass and spin, the compactification length, Rmin, Rmax, dt and the pulse radii by one factor lam > 0 and dividing V2, V3, V4 by lam^2 describes the same problem in another unit of length, and the program respects it (exact arithmetic): radial derivatives are divided by lam (second ones by lam^2), angular operators do not change, the initial pulse is the same field with its time derivative divided by lam, and after any number of steps the field is the same and its time derivative divided by lam; the energy density is divided by lam^2. This holds while the absolute tolerances (1e-16 on the spin and around the compactified infinity, 1e-14 on the pulse width, 1e12 for the radius at infinity) classify the two set-ups alike; in units so large that M < 2e-16 the program takes a black hole of spin M/2 for an extremal one.", "quantifier": "all factors, set-ups, fields, numbers of steps, both radial discretisations", "why_tests_cant": "all factors, set-ups, fields and numbers of steps", "anchors": ["grid.cpp:Grid", "scalar_eom.cpp:Scalar_eom", "scalar_eom.cpp:set_k", "scalar_eom.cpp:time_step", "scalar_eom.cpp:set_rho", "initial_data.cpp:compact_pulse"]}
{"id": "C92", "title": "Spectral accuracy of the Chebyshev derivative", "statement": "In exact arithmetic the Chebyshev radial derivative amplifies data by at most (4/3)(n-2)^3/(upper-lower). Hence for samples of any function f and any polynomial q of degree at most n-3 that fits f at the nodes to within E, the computed derivative is within that factor times E of q' at every node. If f has n-2 derivatives, the last bounded by M, the error at every node is at most (4/3)(n-2)^3 M (upper-lower)^(n-3)/(n-2)!; and if the k-th derivative of f is bounded by M A^k for every k, the largest error over the nodes tends to zero as points are added.", "quantifier": "all functions, all polynomials, all numbers of points, intervals and builds", "why_tests_cant": "all functions and numbers of points", "anchors": ["Source/cheb.cpp:der", "Source/cheb.cpp:to_ch", "Source/cheb.cpp:to_po"]}
{"id": "C93", "title": "The evolution equations and the time step in double precision", "statement": "In IEEE double precision: (i) wherever the field is exactly -1 the right-hand side stored for p is NaN for every theory, coefficient and neighbouring value - also for the canonical theory k=1, because km1/(f+1) is 0/0 there - and after a time step starting from a (filtered) field with value -1 at a grid point both new arrays hold NaN at that point; so the mirror images f=1 (a static solution, preserved exactly) and f=-1 (NaN everywhere after one step) are treated differently. (ii) At field values above -1 where the terms of k(f) cancel by at most a factor q <= 20 to a positive sum, and all numbers are of modulus at most 2^60, the right-hand side is finite and within (6q+21) units 2^-52 of the documented one, on the scale of the sum of the sizes of its terms. (iii) A time step evaluates the right-hand side at the four Runge-Kutta stages u, u+dt/2 k1, u+dt/2 k2, u+dt k3, each formed to within 4 units 2^-52, and the new values are u+dt(k1+2k2+2k3+k4)/6 to within 7 units, on the scale of the sums of the sizes, wherever the numbers are modest; nothing else is read.", "quantifier": "all doubles, theories, coefficients, derivative values, grids, fields", "why_tests_cant": "all double inputs", "anchors": ["Source/scalar_eom.cpp:set_k", "Source/scalar_eom.cpp:set_level", "Source/scalar_eom.cpp:time_step"]}
{"id": "C94", "title": "Spins larger than the mass are accepted and give NaN everywhere", "statement": "In IEEE double precision, if |a| exceeds |m| by at least 2e-16 (and |a| <= 2^400), the code does not report an error: the horizon radii it computes are NaN (square root of a negative number), so the coefficients of d_r^2 f and (d_r f)^2 are NaN at every grid point including spatial infinity, the right-hand side for p is NaN at every point whatever the fields, and one time step from any fields returns normally with NaN in every entry of both new arrays. A whole run from a parameter file with such a spin constructs all objects, performs all its steps and saves and returns normally; from the first step on, all levels of both fields are NaN, and the field and energy-density files of every save but the first hold the same text, that of an all-NaN array.", "quantifier": "all doubles m and a with |a| - |m| >= 2e-16, |a| <= 2^400; all grids, fields, theories, parameter files, schedules", "why_tests_cant": "all over-extremal double inputs", "anchors": ["Source/scalar_eom.cpp:Scalar_eom", "Source/scalar_eom.cpp:set_k", "Source/scalar_eom.cpp:time_step", "Source/main.cpp:main"]}
{"id": "C95", "title": "Memory layout, assertions and threads do not change the results", "statement": "The files a run writes and the fields it ends with do not depend on how the threads interleave or deal out the work, nor on whether assertions are compiled in, nor on the storage order of the points of a sphere (theta or phi running fastest): two executables that differ in these respects only, run on the same parameter file from the same disk, both complete, leave the same disk byte for byte, print at the same times, and hold the same value at every grid point, in any arithmetic (IEEE doubles included), provided the spherical-harmonic library computes the same numbers in the two storage orders; such a counterpart of any library exists. The two diagnostics printed also agree in exact arithmetic; in doubles they are sums whose order follows layout and schedule (C25).", "quantifier": "all parameter files, initial disks, thread schedules, builds, arithmetics, transform libraries", "why_tests_cant": "all schedules, builds and parameter files", "anchors": ["Source/grid.cpp:indx_R_th_ph", "Source/sphere.cpp:indx_Sph", "Source/main.cpp:main", "Source/scalar_eom.cpp:time_step", "Source/io.cpp:write_R_psl"]}
{"id": "C96", "title": "Finite differences: a numerical speed limit; Chebyshev: none", "statement": "With finite differences, two states that differ only on the radial shells a..c stay equal, after j time steps, on every shell outside a-12j..c+12j (three points per radial derivative, four stages per step; the one-sided formulas near the ends are covered by the stated reach), whatever the angular data, the transform library, the theory and the arithmetic, IEEE doubles included; the energy density at a shell depends on the shells within one radial stencil only. In exact arithmetic a pulse supported on shells a..c of an otherwise vacuum state therefore leaves every shell outside a-12j..c+12j exactly zero. With Chebyshev collocation there is no such limit: changing only the last three shells of a vanishing function changes its radial derivative at every other shell.", "quantifier": "all pairs of states, grids with at least eight shells, numbers of steps, arithmetics and libraries", "why_tests_cant": "all states, grids and numbers of steps", "anchors": ["Source/fd.cpp:der", "Source/fd.cpp:der2", "Source/cheb.cpp:der", "Source/scalar_eom.cpp:time_step", "Source/grid.cpp:set_partial_r", "Source/main.cpp:main"]}
{"id": "C97", "title": "Weak fields evolve as in the free theory", "statement": "In exact arithmetic, with linear transforms and a theory with k(0) = k0 + km1 different from zero, multiply the initial f and p by an amplitude t and evolve any number of steps: every run succeeds, the fields vanish at t = 0, and the derivative with respect to t at t = 0 of every stored grid value is exactly the value that the same program computes for the unscaled data with constant k = k(0), the same mass term V2 and no other coupling. So every theory with the same k(0) and V2 gives the same linear response, and deviations from it are of higher order than the amplitude.", "quantifier": "all theories with k(0) non-zero, data, grids, builds, resolutions and numbers of steps", "why_tests_cant": "all amplitudes, theories and numbers of steps", "anchors": ["Source/scalar_eom.cpp:set_k", "Source/scalar_eom.cpp:time_step", "Source/main.cpp:main", "Source/sphere.cpp:sphereX"]}
{"id": "C98", "title": "The spectral filters are not total-variation diminishing", "statement": "The test suite asserts on samples that Cheb::filter, Sphere::filter and Grid::filter reduce total variation. As universal claims they are false, at every resolution. For every number n>=4 of Chebyshev points, Cheb::filter applied to the monotone data s-T3(s)/9 returns data whose total variation is larger. For every grid with nl>=4, nm>=1, at least two points in each direction and decreasing latitude nodes that reach beyond 4/5 on both sides (as the Gauss nodes of the launchable sizes do), the data x-P3(x)/6, x=cos(theta), the same at every radius and longitude and monotone in theta, have a larger Grid::total_variation after Grid::filter than before.", "quantifier": "all resolutions n>=4 and domains for Cheb::filter; all grids with nl>=4, radial schemes, thread schedules for Grid::filter", "why_tests_cant": "the tests evaluate single noisy samples, for which the filters do reduce the total variation", "anchors": ["Source/cheb.cpp:Cheb::filter", "Source/grid.cpp:Grid::filter", "Source/grid.cpp:Grid::total_variation", "Test/test_cheb.cpp:filter_is_TVD", "Test/test_grid.cpp:test_tvd"]}
{"id": "C99", "title": "What a refined radial grid shares with the coarse one", "statement": "On the same domain and in either radial scheme, point i of a grid with n points and point j of a grid with n' points are at the same place exactly when i(n'-1)=j(n-1). So dividing every interval into k (n'=k(n-1)+1) keeps every old point, at k times its index, and convergence tests can compare values without interpolation; doubling the number of points (n'=2n) leaves only the two end points in common. With finite differences in IEEE doubles, dividing every interval into 2^m keeps the old points bit for bit.", "quantifier": "all domains, both schemes, all n, n'>=2, k, m", "why_tests_cant": "every pair of resolutions", "anchors": ["Source/finite_diff.cpp:FD::pt", "Source/cheb.cpp:Cheb::pt", "Source/grid.cpp:Grid::R"]}
{"id": "C100", "title": "What the executables that make, config.py and recompile produce consist of", "statement": "After any history of edits, invocations of make (with any variables, whatever objects it leaves behind) and cleanings, an executable just written by make consists of one object per source unit, each compiled from the present text of its source and of every header: never stale code. The options (USE_CHEB, layout, NDEBUG) each was compiled with are those of some invocation since the last clean, so right after a clean, or when no object survives, the executable is one program of the requested configuration. An executable then stays as it is until one of that name is made or Bin is cleaned. Options can be mixed, because make does not look at them: config.py on a tree without objects always builds the Chebyshev program correctly, and the finite difference program correctly if its first invocation leaves behind no object that tests USE_CHEB (finite_diff.o alone, with GNU make 4.3), but not otherwise; config.py -d true after a release build leaves the assertions of finite_diff off; and recompile=True builds the finite difference program with the strided layout under whatever name the executable has, and a second executable clean_obj<name>, and cleans nothing. make test compiles four units into Source with its own options and without regard to headers: the test program can be stale after a header is edited, and a recompile after it mixes two longitude layouts.", "quantifier": "all file contents, histories of edits/makes/cleans, variables, goals, sets of surviving objects", "why_tests_cant": "every history of the working tree", "anchors": ["Source/Makefile", "Makefile", "Test/Makefile", "config.py", "sim_class.py:then_recompile"]}
{"id": "C101", "title": "Debug builds stop at arrays of the wrong size", "statement": "In a build with assertions, every operation of FD, Cheb, Sphere, Grid and Scalar_eom that takes arrays ends the program, before it reads or writes any element, when one of them does not have the size it is documented with (get_row_R_ph being documented with the wrong one); in the other builds a wrong size can pass unnoticed and return a value.", "quantifier": "all array contents and sizes, all grids, spheres and operators, any arithmetic", "why_tests_cant": "every combination of wrong sizes", "anchors": ["Source/finite_diff.cpp", "Source/cheb.cpp", "Source/sphere.cpp", "Source/grid.cpp", "Source/grid.hpp", "Source/scalar_eom.cpp"]}
{"id": "C102", "title": "What a launch leaves in its directory", "statement": "After launch_run returns, params.txt holds one line per attribute of the launcher's object; apart from output_stem, output_dir and parameter_file these are the values set_derived_params computed, so the solver started there gets exactly those parameters; the executable is a copy of the one in Bin; a run for the queue has its job script and one more queued job. The script asks for num_threads processors and its two commands see the same OpenMP variables, and are given the same command line, as a run on this machine. Automatic directory names agree only for the same second, mass, spin, nx, nl and nm, and lie in Output.", "quantifier": "all attribute lists, directories, executables, solver outcomes, job settings without newlines", "why_tests_cant": "every attribute list, disk and outcome of the solver", "anchors": ["sim_class.py"]}
{"id": "C103", "title": "Minus the data gives minus the solution in double precision", "statement": "For a theory whose coefficients km1, k1 and V3 are zero, two double-precision runs whose fields differ only in sign stay exact negatives of each other, bit for bit up to the signs of zeros, for any number of steps: rounding, overflow and NaN included, for finite differences and Chebyshev, provided at each evaluation of the right-hand side no value is one where (f+1)^2, (1-f)^2 or k(f) is zero (every finite value below 2^500 other than 1 and -1 qualifies if k(f) is not zero; C93 shows f = -1 really is an exception) and the transform library is odd. The energy density, the residual and the total variation of the two runs are the same numbers.", "quantifier": "all grids, fields, parameters, step sizes, thread schedules and numbers of steps", "why_tests_cant": "A symmetry of every rounding of every operation cannot be sampled; the exceptions are single values of f.", "anchors": ["Source/scalar_eom.cpp: Scalar_eom::time_step, set_k, set_rho", "Source/grid.cpp: norm_indep_res, total_variation"]}
