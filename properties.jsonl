{"id": "C01", "title": "Line search never accepts a higher free energy", "statement": "Whenever one line search returns normally, either the free energy reported by the energy functional after the call is not greater than (quadratic step) or strictly less than (backtracking) the one before the call, or the returned point is the t=0 point of the search curve and the caller is told to restart. No comparison law of the number type is assumed, so this covers IEEE doubles including NaN/inf ('not greater' is the test the code makes).", "quantifier": "every energy landscape (any sequence of functional values), every curve, every slope, trial step, tau, incoming restart flag and every arithmetic", "why_tests_cant": "landscapes are arbitrary functions of t and of call history; a test fixes a handful", "anchors": ["src/linesearch/linesearch.hpp: line_search::operator(), qline, bt_search"]}
{"id": "C02", "title": "An uphill direction is refused before anything is evaluated", "statement": "If the slope passed to the line search is positive it raises the slope error, evaluates the energy functional zero times and leaves its state and the restart flag unchanged; for every slope that is not positive (including NaN) it never raises the slope error.", "quantifier": "every slope value of every arithmetic, every functional state", "why_tests_cant": "universally quantified over slopes and landscapes", "anchors": ["src/linesearch/linesearch.hpp: line_search::operator()"]}
{"id": "C03", "title": "Quadratic step: exact minimiser on quadratic landscapes", "statement": "In exact arithmetic, if the free energy along the curve is F0 + slope*t + a*t^2 with a>0 and slope<0, the line search evaluates exactly two points, returns the point at t = -slope/(2a), which is the global minimiser over t, and clears the restart flag.", "quantifier": "every quadratic landscape, slope<0, trial step != 0", "why_tests_cant": "continuum of quadratics", "anchors": ["src/linesearch/linesearch.hpp: qline"]}
{"id": "C04", "title": "The trial-step growth loop always stops in double precision", "statement": "With binary64 arithmetic and the library's trial step 0.2 the quadratic search performs at most a fixed number of trial evaluations for every sequence of energies the functional may report (including NaN, infinities and energies unbounded below): the loop never hangs. In exact real arithmetic the same loop does not terminate on some landscapes that are unbounded below.", "quantifier": "every (history dependent) energy functional over binary64; witness landscape over the reals", "why_tests_cant": "non-termination is not observable by a test; the bound must hold for every response sequence", "anchors": ["src/linesearch/linesearch.hpp: qline (tsearch *= 5)"]}
{"id": "C05", "title": "Backtracking always stops", "statement": "For every tau the backtracking search either rejects the value (tau >= 1) or stops after finitely many trial points, whatever energies are reported: proved in exact arithmetic for every real tau < 1 with an explicit bound for tau in (0,1), and in binary64 for every double tau that is not >= 1, including NaN, infinities and negative values.", "quantifier": "every tau, trial step and every response sequence of the functional", "why_tests_cant": "termination over all doubles and all landscapes", "anchors": ["src/linesearch/linesearch.hpp: bt_search"]}
{"id": "C06", "title": "An invalid backtracking factor is reported, and only when backtracking is needed", "statement": "With tau >= 1 the line search raises a runtime error (not a line search error) exactly when the quadratic step failed; that error is not swallowed by the minimiser but reaches the API caller.", "quantifier": "every landscape, every tau of every arithmetic", "why_tests_cant": "needs all landscapes on which the quadratic step fails", "anchors": ["src/linesearch/linesearch.hpp: bt_search", "src/nlcglib.cpp: nlcg_us catch clauses"]}
{"id": "C07", "title": "Returned point and energy functional state agree", "statement": "When the line search returns normally, the tuple (eigenvalues, rotation, wave functions, mu) it returns is the one of the last point at which the functional was evaluated, so that the functional's stored state (F, occupations, H|X>) belongs to the returned point.", "quantifier": "every landscape, curve, flags", "why_tests_cant": "history property over all evaluation sequences", "anchors": ["src/linesearch/linesearch.hpp: qline, bt_search", "src/nlcglib.cpp: nlcg_us lambda g"]}
{"id": "C08", "title": "Two failed line searches in a row abort the run", "statement": "A line search in which no trial point lowers the energy returns the t=0 point and requests a restart if no restart had been requested, and raises the descent error if one had; consequently in a run a line search that failed is always followed by a steepest-descent direction, and a second consecutive failure ends the run without convergence flag.", "quantifier": "every landscape and every run", "why_tests_cant": "multi-iteration histories", "anchors": ["src/linesearch/linesearch.hpp: bt_search", "src/nlcglib.cpp: nlcg_us 380-439"]}
{"id": "C09", "title": "NaN energies are not detected", "statement": "In binary64 the quadratic step accepts a point whose free energy is NaN: the search returns normally with the functional in the NaN state (finding). A NaN reference energy F0 makes every point acceptable.", "quantifier": "witness over binary64; and for every landscape with NaN at the predicted minimum", "why_tests_cant": "requires IEEE comparison semantics on all landscapes", "anchors": ["src/linesearch/linesearch.hpp: qline line 142"]}
{"id": "C10", "title": "Convergence flag is sound and complete at loop heads", "statement": "A run returns with converged=true iff at the head of some iteration i < maxiter the absolute slope was below tol and no earlier iteration head was; then iter=i and no further energy evaluation happens.", "quantifier": "every problem (all oracles), every maxiter, tol, restart, tau, every arithmetic", "why_tests_cant": "all runs of unbounded length", "anchors": ["src/nlcglib.cpp: nlcg_us 308-341"]}
{"id": "C11", "title": "Iteration and record budget", "statement": "A run performs at most max(maxiter,0) line searches and writes one JSON step record per started iteration, with step numbers 0,1,2,... consecutive and no gaps or repeats; band energies and occupations are attached exactly to the records whose step is divisible by 10.", "quantifier": "every run, every maxiter", "why_tests_cant": "unbounded histories", "anchors": ["src/nlcglib.cpp: nlcg_us, cg_write_step_json", "src/utils/step_logger.hpp: StepLogger"]}
{"id": "C12", "title": "Free energy is non-increasing over a run", "statement": "In exact arithmetic, if re-evaluating the curve at t=0 reproduces the current free energy (proved for the geodesic under the eigensolver contract in C40), the free energies at successive iteration heads of any run form a non-increasing sequence.", "quantifier": "every run of every length, every landscape", "why_tests_cant": "all histories", "anchors": ["src/nlcglib.cpp: nlcg_us", "src/linesearch/linesearch.hpp"]}
{"id": "C13", "title": "Exit classification", "statement": "Every run ends in exactly one of: converged return; non-converged return after maxiter iterations; non-converged return because no descent was found; non-converged return because the slope stayed positive after restart; an exception of another type propagated from an oracle or from invalid tau; undefined behaviour only if restart=0 and an iteration completes its line search.", "quantifier": "every run", "why_tests_cant": "covers all control paths at once", "anchors": ["src/nlcglib.cpp: nlcg_us"]}
{"id": "C14", "title": "restart=0 is undefined behaviour; restart>=1 restarts periodically", "statement": "With restart=0 every run whose first line search succeeds divides by zero (finding). With restart = r>=1, after iteration i the next direction is the preconditioned steepest descent direction whenever r divides i (in particular after iteration 0), whenever the line search gave up, and whenever the conjugate slope is positive; otherwise it is the conjugate direction.", "quantifier": "every run, every restart", "why_tests_cant": "histories of unbounded length", "anchors": ["src/nlcglib.cpp: nlcg_us 393-430"]}
{"id": "C15", "title": "nlcg_info.tolerance is not the residual", "statement": "On every return of a run that started at least one iteration, info.tolerance equals slope + (-1), where slope is the slope at the head of the last started iteration; so it is negative whenever slope < 1 and never equals the residual used for the convergence test (finding).", "quantifier": "every run over exact arithmetic", "why_tests_cant": "must hold on all runs", "anchors": ["src/nlcglib.cpp: print_info, nlcg_us", "include/interface.hpp: nlcg_info"]}
{"id": "C16", "title": "maxiter<=0 returns uninitialised numbers", "statement": "If maxiter<=0 the returned info has converged=false but F, S, tolerance and iter are indeterminate (finding); if maxiter>=1 all fields of every returned info are initialised.", "quantifier": "every run", "why_tests_cant": "reading indeterminate values is UB, invisible to tests", "anchors": ["src/nlcglib.cpp: nlcg_us", "include/interface.hpp: nlcg_info"]}
{"id": "C17", "title": "Reported F belongs to the state left behind only on converged exit", "statement": "On a converged return info.F is the functional's current F. On the maxiter exit info.F is the value before the last line search, and on the no-descent exit the functional is left at the last rejected trial point, whose F is not lower than info.F (findings with witnesses); on the slope-error exit they agree.", "quantifier": "every run; witnesses", "why_tests_cant": "compares final state with report on all histories", "anchors": ["src/nlcglib.cpp: nlcg_us", "src/linesearch/linesearch.hpp: bt_search"]}
{"id": "C18", "title": "Convergence reached by the last allowed iteration is not reported", "statement": "There are runs in which the slope after the last allowed iteration is below tol and yet converged=false is returned (finding); exactly: the slope computed in iteration maxiter-1 is never tested.", "quantifier": "every run; witness", "why_tests_cant": "boundary over all maxiter", "anchors": ["src/nlcglib.cpp: nlcg_us 308"]}
{"id": "C19", "title": "Every rank makes the same collective calls", "statement": "For any two ranks of the k-point communicator that see the same reduced scalars, the sequence of collective operations of a run is the same, whatever their rank numbers, and only rank 0 of that communicator appends to nlcg.json.", "quantifier": "every run, every pair of ranks", "why_tests_cant": "deadlock freedom over all rank counts and histories", "anchors": ["src/nlcglib.cpp: cg_write_step_json, nlcg_us", "src/utils/step_logger.hpp"]}
{"id": "C20", "title": "API dispatch", "statement": "nlcg_us_cpu and nlcg_us_device run the minimiser with the smearing named by the enum and with temp, tol, kappa, tau, maxiter, restart passed to the equally named parameters; any other enum value raises; device entry points raise without GPU support; nlcg_us_device_cpu behaves as nlcg_us_cpu and nlcg_us_cpu_device as nlcg_us_device; all nlcg_mvp2_* entry points always raise.", "quantifier": "every argument tuple, every build configuration", "why_tests_cant": "all enum values and parameter tuples (argument order is permuted in the calls)", "anchors": ["src/nlcglib.cpp: nlcg_us_cpu, nlcg_us_device, nlcg_us_device_cpu, nlcg_us_cpu_device, nlcg_mvp2_*"]}
{"id": "C21", "title": "Chemical potential search returns only solutions", "statement": "If the chemical potential search returns mu then |f(mu)| < tol strictly; otherwise it raises. No arithmetic law is assumed (NaN residuals raise).", "quantifier": "every residual function, start value, tolerance, arithmetic", "why_tests_cant": "all functions", "anchors": ["src/smearing.hpp: find_chemical_potential"]}
{"id": "C22", "title": "Chemical potential search is bounded", "statement": "The search evaluates the residual at no more than 2*1000+3 arguments and updates mu at most 1000 times, for every residual function.", "quantifier": "every residual function and arithmetic", "why_tests_cant": "all functions", "anchors": ["src/smearing.hpp: find_chemical_potential"]}
{"id": "C23", "title": "The search always walks towards the solution", "statement": "In exact arithmetic, for a non-increasing residual with a root, each update of mu moves in the direction of every root; the step grows by 1.25 while the direction is kept and shrinks to a quarter when it flips.", "quantifier": "every non-increasing residual function, every reachable search state", "why_tests_cant": "all functions and all histories", "anchors": ["src/smearing.hpp: find_chemical_potential"]}
{"id": "C24", "title": "The search succeeds on every admissible spectrum", "statement": "In exact arithmetic, for a non-increasing residual f with f(-D)>=0>=f(D) that is Lipschitz up to a jump smaller than the tolerance (|f(x)-f(y)| <= L|x-y|+J, J<tol), the search finds mu within its 1000 updates whenever the explicit size condition on L, D and tol holds; the only way it can still raise is that the residual at the value found equals the tolerance exactly (C25).", "quantifier": "every residual function in the class", "why_tests_cant": "convergence over a function class; no finite test set", "anchors": ["src/smearing.hpp: find_chemical_potential"]}
{"id": "C25", "title": "|f(mu)| equal to the tolerance is rejected", "statement": "If the residual at the start value equals the tolerance exactly the search raises although its loop has accepted the value (finding: loop uses >, final check uses <).", "quantifier": "every function with |f(mu0)|=tol", "why_tests_cant": "boundary", "anchors": ["src/smearing.hpp: find_chemical_potential 29,43"]}
{"id": "C26", "title": "Newton search: bounded and charge error at most 1e-2", "statement": "The Newton minimisation for mu ends after at most maxstep+1 iterations; if it returns mu, the charge error at the returned mu is not greater than 1e-2; otherwise it raises failed_to_converge. The returned mu need not satisfy the caller's tolerance (finding with witness).", "quantifier": "every N, dN, ddN, start, tolerance, arithmetic", "why_tests_cant": "all functions", "anchors": ["src/dft/newton_minimization_smearing.hpp: newton_minimization_chemical_potential"]}
{"id": "C27", "title": "Electron count is conserved", "statement": "For Fermi-Dirac, Gauss and Gaussian-spline smearing, occupations returned for band energies satisfy |Ne - sum_k w_k sum_i f_ki| < 1e-11 in the code's own summation, for every spectrum, weights and distribution over ranks, or an exception is raised. For Methfessel-Paxton and cold smearing the same holds with bound 1e-2 when the Newton path is used and 1e-11 if it is disabled or fell back.", "quantifier": "every spectrum, weights, temperature, number of electrons, arithmetic", "why_tests_cant": "all spectra", "anchors": ["src/smearing.hpp: occupation_from_mvector, occupation_from_mvector_newton, Smearing::fn"]}
{"id": "C28", "title": "All ranks obtain the same chemical potential", "statement": "The chemical potential and the occupation of each band do not depend on how k-points are distributed over ranks and are bitwise equal on all ranks, in any (non-associative) arithmetic, provided the k-point keys are distinct across ranks.", "quantifier": "every distribution of k-points over any number of ranks", "why_tests_cant": "all distributions and floating point non-associativity", "anchors": ["src/smearing.hpp: occupation_from_mvector", "src/la/mvector.hpp: mvector::allgather"]}
{"id": "C29", "title": "Occupations lie in [0, max occupancy] and increase with mu - e", "statement": "For Fermi-Dirac, Gaussian-spline and Gauss smearing (exact arithmetic) 0 <= fn(x) <= mo and fn is non-decreasing on the whole line, including across the truncation points. For Methfessel-Paxton and cold smearing both fail (witnesses).", "quantifier": "every real x, every mo>=0", "why_tests_cant": "continuum", "anchors": ["src/smearing.hpp: fermi_dirac::fn, gaussian_spline::fn, gauss_smearing::fn, cold_smearing::fn, methfessel_paxton_smearing::fn"]}
{"id": "C30", "title": "delta is the derivative of the occupation function", "statement": "For all five smearings, delta(x) is the derivative of fn at every x inside the common window (|x|<35 Fermi-Dirac, |x|<7 spline, |x|<8 cold, all x otherwise); on the rest of the window of fn (35<x<40 Fermi-Dirac, 7<|x|<8 spline) delta is 0 although fn still varies, and for 8<x<=10 cold smearing's delta is negative although fn is constant.", "quantifier": "every real x", "why_tests_cant": "continuum", "anchors": ["src/smearing.hpp: *::fn, *::delta"]}
{"id": "C31", "title": "Entropy is consistent with delta", "statement": "d/dx entropy(x) = -x*delta(x) inside the window for Fermi-Dirac, Gauss, cold and Methfessel-Paxton for every mo; for Gaussian-spline it holds for mo=1 only: the spline entropy ignores mo (finding).", "quantifier": "every real x, every mo", "why_tests_cant": "continuum", "anchors": ["src/smearing.hpp: *::entropy"]}
{"id": "C32", "title": "Second derivative used by Newton", "statement": "dxdelta is the derivative of delta for Fermi-Dirac, Gauss and cold smearing inside the window; for Methfessel-Paxton (missing factor x) and Gaussian-spline with x<=0 (missing factor x) it is not (findings with witnesses).", "quantifier": "every real x", "why_tests_cant": "continuum", "anchors": ["src/smearing.hpp: *::dxdelta"]}
{"id": "C33", "title": "Truncation error of the occupation functions", "statement": "The truncated Fermi-Dirac and Gaussian-spline occupations differ from the exact functions by at most mo*exp(-35) and mo*exp(-64)/2 respectively, for every x.", "quantifier": "every real x", "why_tests_cant": "continuum", "anchors": ["src/smearing.hpp: fermi_dirac::fn, gaussian_spline::fn"]}
{"id": "C34", "title": "Free energy never exceeds the Kohn-Sham energy for positive temperature", "statement": "For Fermi-Dirac, Gauss and Gaussian-spline smearing with non-negative weights and T>=0 the entropy contribution added to the total energy is <= 0. For cold and Methfessel-Paxton it can be positive (witness).", "quantifier": "every spectrum", "why_tests_cant": "all spectra", "anchors": ["src/smearing.hpp: Smearing::entropy", "src/free_energy.hpp: FreeEnergy::compute"]}
{"id": "C35", "title": "Temperature validation", "statement": "Constructing a smearing with T=0 raises; T<0 is accepted although the message says T must be >0 (finding), and then occupations decrease with mu - e.", "quantifier": "every T", "why_tests_cant": "all values", "anchors": ["src/smearing.hpp: Smearing::Smearing"]}
{"id": "C36", "title": "Particle-hole symmetry and even delta", "statement": "fn(x)+fn(-x)=mo for Gauss, Methfessel-Paxton and Gaussian-spline for all x and for Fermi-Dirac for |x|<=35; delta(-x)=delta(x) for Fermi-Dirac, Gauss, spline, Methfessel-Paxton; cold smearing's delta is not even, so evaluating it at (e-mu)/kT, as the pseudo-Hamiltonian gradient does, does not give -df/de (finding).", "quantifier": "every real x", "why_tests_cant": "continuum", "anchors": ["src/smearing.hpp: *::fn, *::delta", "src/pseudo_hamiltonian/grad_eta.hpp"]}
{"id": "C37", "title": "Diagonal pseudo-Hamiltonian gradient is the constrained derivative of the free energy", "statement": "For smearings with even delta and consistent entropy, the diagonal of the eta-gradient equals the derivative of the free energy (band energy contribution with fixed H plus entropy term) with respect to the pseudo-eigenvalues when mu follows so that the electron count stays fixed.", "quantifier": "every spectrum, weights, k-point set, direction", "why_tests_cant": "continuum, all sizes", "anchors": ["src/pseudo_hamiltonian/grad_eta.hpp: GradEtaHelper::dFdmu, dmu_deta, GradEta::g_eta"]}
{"id": "C38", "title": "Steepest descent directions descend", "statement": "In exact arithmetic the slope returned for a (re)started direction is <= 0 for every state, provided the preconditioner is Hermitian positive semidefinite and the linear systems are solvable, kappa>=0, T>0, weights>0, and smearing is Fermi-Dirac, Gauss or Gaussian-spline; for Methfessel-Paxton/cold it can be positive (witness).", "quantifier": "every state of every dimension, any number of k-points and ranks", "why_tests_cant": "all matrices of all sizes", "anchors": ["src/mvp2/descent_direction.hpp: restarted", "src/mvp2/descent_direction_impl.hpp: exec_spc", "src/mvp2/mvp2.hpp", "src/pseudo_hamiltonian/grad_eta.hpp"]}
{"id": "C39", "title": "Search directions satisfy the orthonormality constraint to first order", "statement": "Steepest-descent and conjugate wave-function directions Z satisfy (S X)^H Z = 0, and the update Z <- delta + gamma Z preserves it.", "quantifier": "every state, gamma, dimension", "why_tests_cant": "all matrices", "anchors": ["src/mvp2/mvp2.hpp: lmult, precondgx_us, conjugatex", "src/mvp2/descent_direction.hpp: conjugated"]}
{"id": "C40", "title": "Every trial point is S-orthonormal, and t=0 reproduces the current state", "statement": "For every t for which X+tZ has full rank w.r.t. S the wave functions of the trial point satisfy X'^H S X' = 1; for t=0 and an orthonormal X the trial point is X times a unitary that diagonalises eta, the pseudo-eigenvalues are unchanged as a spectrum and the density matrix X f X^H is unchanged.", "quantifier": "every t, X, Z, S of every dimension", "why_tests_cant": "all matrices, continuum of t", "anchors": ["src/la/lapack.hpp: loewdin", "src/geodesic.hpp: advance_x, advance_eta, geodesic_us"]}
{"id": "C41", "title": "Slope of the conjugate direction", "statement": "The slope reported for a conjugate direction equals the real inner product of the gradient with the new direction delta + gamma Z', where Z' is the rotated, re-orthogonalised previous direction; gamma = fr/fr_old.", "quantifier": "every state, dimension and k-point distribution", "why_tests_cant": "all matrices", "anchors": ["src/mvp2/descent_direction.hpp: conjugated", "src/mvp2/descent_direction_impl.hpp: exec_conjugate"]}
{"id": "C42", "title": "Pseudo-Hamiltonians stay Hermitian", "statement": "Along every run all matrices handed to the Hermitian eigensolver (which reads one triangle only) are Hermitian, if <X|H|X> is Hermitian at each point.", "quantifier": "every run of every length", "why_tests_cant": "history invariant", "anchors": ["src/geodesic.hpp: advance_eta", "src/pseudo_hamiltonian/grad_eta.hpp: _delta_eta, g_eta", "src/mvp2/mvp2.hpp: rotateeta"]}
{"id": "C43", "title": "Near-degenerate bands lose their off-diagonal gradient", "statement": "For |e_i-e_j| < 1e-10 the off-diagonal eta-gradient is 0, although the limit of the formula for e_j -> e_i is f'(e_i) H_ij which is non-zero: the gradient is discontinuous (finding).", "quantifier": "every spectrum with degenerate bands", "why_tests_cant": "limit statement", "anchors": ["src/pseudo_hamiltonian/grad_eta.hpp: g_eta 178"]}
{"id": "C44", "title": "Matrix kernels stay inside their buffers and compute the documented product", "statement": "inner, transform, outer, add and scale on column-major buffers with leading dimensions: for conforming shapes every access is inside the allocation, the result is the documented matrix expression, elements outside the result (padding) are untouched, and non-unit row stride or distributed operands raise. outer computes A*B^H for square operands; for a packed tall A (more rows than columns) it reads outside A, and for a packed wide A the BLAS routine rejects its arguments (finding). add forms its element index in int, so a matrix with an element index above 2^31-1 overflows (finding).", "quantifier": "all dimensions, leading dimensions, contents", "why_tests_cant": "all shapes; out-of-bounds is UB", "anchors": ["src/la/lapack_cpu.hpp: inner, outer, transform, add", "src/la/lapack.hpp: scale, inner_", "src/la/cblas.hpp: geam"]}
{"id": "C45", "title": "Allocating transform needs B no wider than A", "statement": "The allocating product A*B returns a matrix of A's shape: it is the product when B is square, leaves extra zero columns when B is narrower, and writes out of bounds when B is wider (finding).", "quantifier": "all shapes", "why_tests_cant": "UB for all larger shapes", "anchors": ["src/la/lapack.hpp: transform_alloc"]}
{"id": "C46", "title": "beta=0 does not mean overwrite in add", "statement": "In binary64, add with beta=0 on a destination holding NaN or infinity yields NaN instead of alpha*A on the non-MKL path (finding: unary minus uses it on uninitialised memory); scale and the generic elementwise add ignore the old contents for beta=0.", "quantifier": "every content of the destination", "why_tests_cant": "IEEE special values in uninitialised memory", "anchors": ["src/la/cblas.hpp: geam", "src/nlcglib.cpp: minus", "src/la/lapack.hpp: scale, _add"]}
{"id": "C47", "title": "A failed Cholesky factorisation is not reported", "statement": "Solving with a matrix that is not positive definite returns normally with whatever the factorisation left behind (finding); with a positive definite matrix and a correct factorisation the right-hand side is replaced by the solution.", "quantifier": "every matrix", "why_tests_cant": "needs all non-PD matrices", "anchors": ["src/la/lapack_cpu.hpp: solve_sym"]}
{"id": "C48", "title": "allgather of k-point data yields the union on every rank", "statement": "After an allgather every rank holds exactly the union of all ranks' entries under their keys with unchanged values, for scalars and for 1D arrays of any lengths, any number of ranks, including ranks without entries; offsets partition the buffers without overlap.", "quantifier": "any number of ranks, keys, lengths", "why_tests_cant": "all distributions", "anchors": ["src/la/mvector.hpp: allgather, _allgather", "src/mpi/communicator.hpp: allgather"]}
{"id": "C49", "title": "Duplicate keys are resolved differently for scalars and arrays", "statement": "If two ranks hold the same key, the scalar allgather keeps the value of the lowest rank and the array allgather the value of the highest rank (finding).", "quantifier": "all distributions with duplicates", "why_tests_cant": "combinatorial", "anchors": ["src/la/mvector.hpp: allgather"]}
{"id": "C50", "title": "Map application over k-points", "statement": "Applying a function over several keyed containers yields one result per key of the first container, computed from the entries of that key; a key missing in another container raises out_of_range; evaluation preserves keys and order; unzip of a container of tuples gives the component containers.", "quantifier": "all containers", "why_tests_cant": "all key sets", "anchors": ["src/la/utils.hpp: tapply, tapply_op, tapply_async", "src/la/mvector.hpp: eval_threaded, unzip"]}
{"id": "C51", "title": "Distributed sum; norms are rank-local", "statement": "sum over a communicator returns on all ranks the sum of all entries of all ranks; a communicator smaller than the container's own raises. Evaluating a container drops its communicator, hence l2norm and innerh_reduce reduce only the local k-points and differ between ranks (finding).", "quantifier": "any distribution", "why_tests_cant": "all distributions", "anchors": ["src/la/mvector.hpp: sum, eval_threaded", "src/la/lapack.hpp: l2norm, innerh_reduce"]}
{"id": "C52", "title": "A k-point without band energies counts as zero electrons", "statement": "In the electron count, a weight whose key has no band energies contributes 0 silently instead of raising (finding).", "quantifier": "all spectra/weights", "why_tests_cant": "all key sets", "anchors": ["src/smearing.hpp: occupation_from_mvector (x[key])", "src/la/mvector.hpp: operator[]"]}
{"id": "C53", "title": "Strided wave-function exchange", "statement": "Storing wave functions in the caller's buffers writes exactly the size[0] x size[1] elements addressed by the strides, leaves padding and all other memory unchanged, and reading them back gives the same matrices, for every order of the element copies; buffers that are not host memory are refused and a key without matrix throws out_of_range, both before anything is written. The copy into another memory space ignores the strides: right for densely packed buffers, and for every other layout wrong for some contents (finding).", "quantifier": "all key lists, sizes, strides separating the elements (e.g. stride[1] >= size[0]*stride[0]), contents and copy orders", "why_tests_cant": "all layouts", "anchors": ["src/la/dvector.hpp: KokkosDVector(map, buffer)", "src/free_energy.hpp: compute, get_X", "src/la/mvector.hpp: make_mmatrix"]}
{"id": "C54", "title": "Vertical slab layout validation", "statement": "A slab layout built from blocks with non-negative row counts whose sum fits an int reports the sum of the rows and the given (or the first block's) width if every block has that width and column offset 0, and raises otherwise; row positions are never looked at. It is undefined behaviour for an empty block list with the default width and for valid blocks whose rows do not fit an int (findings).", "quantifier": "all block lists", "why_tests_cant": "all lists", "anchors": ["src/la/layout.hpp: SlabLayoutV"]}
{"id": "C55", "title": "Occupation hand-over keeps keys and vectors aligned", "statement": "The key list and occupation list given to the energy functional have equal length and the i-th vector belongs to the i-th key, for every container.", "quantifier": "all containers", "why_tests_cant": "all sizes", "anchors": ["src/free_energy.hpp: FreeEnergy::compute"]}
{"id": "C56", "title": "Newton switch from the environment", "statement": "The environment switch is sampled once: in every interleaving of concurrent callers with a constant environment all calls return the same answer, namely whether the variable is set to something other than \"0\"; after a first call has completed alone, later changes of the environment have no effect. If the environment changes while first calls overlap, two calls can disagree (finding).", "quantifier": "every interleaving of any number of callers", "why_tests_cant": "all schedules", "anchors": ["src/utils/env.hpp: get_skip_newton_efermi"]}
{"id": "C57", "title": "Concurrent log messages can be lost or duplicated", "statement": "The logger takes no lock (the lock statement declares a function). Calls that do not overlap are logged exactly in their order; for any two messages there is an interleaving in which the first is lost and the second written twice, and for n messages one in which all of them are written n times (finding).", "quantifier": "every number of writers, all messages", "why_tests_cant": "schedules", "anchors": ["src/utils/logger.hpp: Logger::operator<<"]}
{"id": "C58", "title": "format overruns its buffer", "statement": "The formatting helper is defined iff the output of sprintf is shorter than the format string itself and overruns its buffer otherwise (finding): always for texts without conversion, for an integer of two or more characters, and for a string of two or more characters between plain texts.", "quantifier": "every format with %d, %s, %% and every argument list", "why_tests_cant": "UB", "anchors": ["src/utils/format.hpp: format"]}
{"id": "C59", "title": "Iterating a packed operator is undefined behaviour", "statement": "Traversing an overlap or preconditioner operator with begin/end reads past the key list on the last increment (and on begin for an empty list): every complete traversal is UB (finding); a loop left in its body after at most as many elements as there are keys sees the first of them in order; access by key is safe.", "quantifier": "every key list", "why_tests_cant": "UB on all inputs", "anchors": ["src/operator.hpp: op_iterator"]}
{"id": "C60", "title": "Teter preconditioner is positive, bounded by 1 and decreasing", "statement": "For kinetic energies T>=0 the diagonal preconditioner entries lie in (0,1], equal 1 only at T=0 and decrease strictly with T in exact arithmetic; in binary64 they are finite and in (0,1] for 0<=T<=2^120, but not for all finite T (finding: 0 at 1e80, NaN at 1e110). Applying it scales row i by entry i, in place or into a new matrix, for every order of the elements; fewer entries than rows is UB.", "quantifier": "every T>=0; every matrix and order", "why_tests_cant": "continuum", "anchors": ["src/preconditioner.hpp: PreconditionerTeter, diagonal_preconditioner"]}
{"id": "C61", "title": "Every run terminates", "statement": "In binary64 every run of the minimiser returns, throws or hits the restart=0 undefined behaviour, for every energy functional, every tolerance, tau, restart period and maxiter, including NaN or infinite energies and parameters: none of the library's own loops can run for ever (the callbacks are assumed to return).", "quantifier": "every functional, parameters and start state", "why_tests_cant": "termination over all behaviours of the functional", "anchors": ["src/nlcglib.cpp: nlcg_us", "src/linesearch/linesearch.hpp"]}
{"id": "C62", "title": "The chemical potential search succeeds", "statement": "For Fermi-Dirac smearing with at most 5000 states (max occupancy times weighted bands; one million for the Gaussian spline), 1 K <= T <= 10^6 K, band energies within 1000 Ha, non-negative weights and an electron number between 0 and the number of states, computing the occupation succeeds on every rank with a charge error below the tolerance 1e-11; only an exact tie |error| = tolerance raises (exact arithmetic). In particular the 1000-step budget is never exhausted.", "quantifier": "every spectrum, weights, distribution over ranks, temperature and electron number in the range", "why_tests_cant": "continuum of spectra", "anchors": ["src/smearing.hpp: find_chemical_potential, occupation_from_mvector"]}
{"id": "C63", "title": "Fletcher-Reeves value is carried from step to step", "statement": "In every run, the Fletcher-Reeves value handed to a conjugate step is the slope of the immediately preceding direction if that was a steepest descent direction (start, restart, or fallback after an uphill conjugate direction), and the value returned by the immediately preceding conjugate step otherwise; it is never stale.", "quantifier": "every run, any arithmetic", "why_tests_cant": "histories of unbounded length", "anchors": ["src/nlcglib.cpp: nlcg_us 305, 393-430"]}
{"id": "C64", "title": "Every trial point of a run is orthonormal", "statement": "Along every run (any number of steps, restarts and line search trials) every wave function produced by a trial point satisfies X^H S X = 1 if the start does, and the overlap matrix whose inverse square root is taken is Hermitian positive definite, so the division by the square roots of its eigenvalues is safe (exact arithmetic, correct eigensolver).", "quantifier": "every run, every system size, number of k-points, overlap and preconditioner", "why_tests_cant": "unbounded histories and sizes", "anchors": ["src/geodesic.hpp: geodesic_us", "src/la/lapack.hpp: loewdin", "src/nlcglib.cpp: nlcg_us"]}
{"id": "C65", "title": "No run with a monotone smearing is refused for its slope", "statement": "With Fermi-Dirac, Gauss or Gaussian-spline smearing, T > 0, kappa >= 0, every steepest descent slope of every run is <= 0 and no run ends with a slope error. With Methfessel-Paxton or cold smearing this is false: there are systems for which the very first line search is refused and the minimiser returns unconverged whatever the other parameters are (finding).", "quantifier": "every run (exact arithmetic)", "why_tests_cant": "all systems and histories", "anchors": ["src/nlcglib.cpp: nlcg_us 436-439", "src/mvp2/descent_direction.hpp: restarted, conjugated", "src/linesearch/linesearch.hpp: line_search"]}
{"id": "C66", "title": "Free energies reported along a run never increase", "statement": "If the caller's total energy depends on the density matrices only, the free energies of the step records are non-increasing, and the free energy the run ends with is at most each of them when every line search returned (exact arithmetic). The line search's return to t=0 is covered because the t=0 trial point reproduces the density matrices, the chemical potential and the entropy.", "quantifier": "every run", "why_tests_cant": "all histories", "anchors": ["src/nlcglib.cpp: nlcg_us 345-391", "src/geodesic.hpp: geodesic_us", "src/free_energy.hpp: compute"]}
{"id": "C67", "title": "Every energy evaluation has the right number of electrons", "statement": "In every run every call of the energy functional after the very first one (which uses the caller's own occupations) gets occupations whose weighted sum differs from the electron number by less than the tolerance; with Methfessel-Paxton or cold smearing and Newton enabled by at most 0.01. This holds also for runs that end in an exception.", "quantifier": "every run, every functional", "why_tests_cant": "all histories", "anchors": ["src/smearing.hpp: Smearing::fn", "src/nlcglib.cpp: nlcg_us 276-280, 349-352", "src/free_energy.hpp: compute"]}
{"id": "C68", "title": "Applying the caller's operator", "statement": "Applying an operator of the calling program that honours the buffer descriptors returns a new packed matrix of the same shape holding the operator applied to the argument, and leaves the argument unchanged, provided extents and strides are below 2^31; from 2^31 on they are handed over as negative numbers (finding).", "quantifier": "all matrices, strides and operators honouring their descriptors", "why_tests_cant": "all operators", "anchors": ["src/operator.hpp: applicator", "src/la/dvector.hpp: as_buffer_protocol"]}
{"id": "C69", "title": "Vectors of the calling program", "statement": "Vectors received from the calling program appear under their key with their elements if in host memory, raise if in device memory (host build), and are silently left out if their memory type is none (finding); the stride of the buffer is not used (finding).", "quantifier": "all lists of vectors", "why_tests_cant": "all lists", "anchors": ["src/la/mvector.hpp: make_mmvector"]}
{"id": "C70", "title": "Reported slopes and the derivative of the free energy", "statement": "Along the trial points of a line search at fixed Hamiltonian, with the chemical potential that keeps the electron count (it exists), the derivative of the free energy at t=0 is the inner product of the library's gradient with the direction, plus the contribution of the pairs of levels closer than 1e-10 which the gradient leaves out; for the restarted and the conjugate directions the inner product is the slope the library reports. Without such pairs the reported slope is exactly the derivative, degenerate eigenvalues of the trial pseudo-Hamiltonian included.", "quantifier": "every system size, number of k-points and ranks, tangent direction, Hamiltonian, overlap and preconditioner; all smearings except cold (exact arithmetic)", "why_tests_cant": "derivatives over a continuum of systems", "anchors": ["src/mvp2/descent_direction.hpp: restarted, conjugated", "src/pseudo_hamiltonian/grad_eta.hpp: GradEta", "src/geodesic.hpp: geodesic_us"]}
{"id": "C71", "title": "Short steps along the search direction lower the free energy", "statement": "At every point that is not stationary the steepest descent direction has a negative slope, and every short enough step along its trial curve lowers the free energy at constant electron count (monotone smearings, fixed Hamiltonian); the same holds for every conjugate direction whose slope plus the contribution of close levels is negative.", "quantifier": "every non-stationary state of every system (exact arithmetic)", "why_tests_cant": "continuum of states", "anchors": ["src/mvp2/descent_direction.hpp: restarted, conjugated", "src/geodesic.hpp: geodesic_us"]}
{"id": "C72", "title": "Zero slope and stationary points", "statement": "The slope of the steepest descent direction is zero iff every k-point is stationary: H X = S X L for some matrix L, h_i - e_i is one constant, and H has no matrix element between levels at least 1e-10 apart. At such a point the derivative of the free energy along every direction is that of the pairs closer than 1e-10 only. These are not always zero: two coupled bands at the same energy give a zero slope although the free energy decreases along the very direction returned, so the run stops as converged at a point that is not a minimum (finding).", "quantifier": "every state of every system (exact arithmetic)", "why_tests_cant": "continuum of states", "anchors": ["src/mvp2/descent_direction.hpp: restarted", "src/pseudo_hamiltonian/grad_eta.hpp: GradEta 121-187", "src/nlcglib.cpp: nlcg_us"]}
{"id": "C73", "title": "Occupations in double precision", "statement": "In binary64, Fermi-Dirac, Gaussian-spline and Gauss occupations are finite, lie in [0, max occupancy] and do not decrease when their argument grows, for every argument that is not a NaN (infinities included), whatever library supplies exp and erf as long as these are monotone with the usual ranges; the corresponding delta is finite and non-negative. A positive temperature so small that kT underflows is accepted by the constructor and makes the occupation of a band at the chemical potential a NaN; Methfessel-Paxton's delta is a NaN for huge finite arguments (findings).", "quantifier": "every double, every max occupancy of at least 2^-1000, every library meeting the contract", "why_tests_cant": "2^64 arguments and an unspecified math library", "anchors": ["src/smearing.hpp: fermi_dirac, gaussian_spline, gauss_smearing, methfessel_paxton_smearing, Smearing::Smearing"]}
{"id": "C74", "title": "Chemical potential search in double precision: direction", "statement": "With these smearings the residual Ne - N(mu) evaluated in binary64 is finite and non-increasing in mu, so every update of the search moves towards every chemical potential whose residual is within the tolerance, or is absorbed by rounding; it never moves away.", "quantifier": "every spectrum of finite doubles, weights in [0,2^100], any distribution over ranks, kT a positive double", "why_tests_cant": "all spectra and all rounding errors", "anchors": ["src/smearing.hpp: sum_func, find_chemical_potential, occupation_from_mvector"]}
{"id": "C75", "title": "Chemical potential search in double precision: success", "statement": "If there are two doubles lo, hi within +-2^(j-1) (1 <= j <= 40) and at least 2^(j-50) apart with residual at most tol at lo and at least -tol at hi, the search in binary64 ends after at most 371 updates at a finite mu with |residual| <= tol; only an exact tie |residual| = tol raises, and otherwise every rank gets that mu and occupations in [0, max occupancy].", "quantifier": "every monotone residual in binary64, in particular those of every run with a monotone smearing", "why_tests_cant": "all rounding errors along walks of hundreds of steps", "anchors": ["src/smearing.hpp: find_chemical_potential, occupation_from_mvector"]}
{"id": "C76", "title": "Electron number held by the occupations returned in double precision", "statement": "Whenever computing the occupation in binary64 succeeds with a monotone smearing, the doubles returned, weighted and summed exactly over all ranks, differ from the electron number by at most (1+2^-53) tol + 2 N 2^-53 E + 2^-1000, where E is that sum and N the largest number of bands of a k-point plus the number of k-points plus one.", "quantifier": "every spectrum, weights, distribution over ranks", "why_tests_cant": "accumulated rounding errors for every input", "anchors": ["src/smearing.hpp: sum_func, occupation_from_mvector"]}
{"id": "C77", "title": "Descent directions computed in memory", "statement": "For every set of k-points on every number of ranks whose wave functions, H times wave functions, pseudo-eigenvalues and occupations are held in column-major views (any leading dimension), with Hermitian S >= 0, Hermitian positive definite preconditioner, S-orthonormal X, Hermitian X^H H X and non-zero weights, computing the steepest descent direction neither reads nor writes outside any buffer, throws or rejects an argument, and the views returned hold Z_X = P (S X L - H X) with (S X)^H P S X L = (S X)^H P H X and Z_eta = kappa (X^H H X - diag e), a pair determined by these equations. Slope and directions, also of the conjugate direction, equal the matrix formulas and do not depend on the order of the parallel loops, the contents of uninitialised memory, the leading dimensions, the LAPACK routines within their contract or the implementation of the operators.", "quantifier": "every size fitting int, leading dimension, loop order, uninitialised contents, potrf/potrs within contract, operator implementation", "why_tests_cant": "loop orders, uninitialised memory and strides cannot be enumerated", "anchors": ["src/mvp2/descent_direction_impl.hpp: exec_spc, exec_conjugate", "src/mvp2/mvp2.hpp", "src/pseudo_hamiltonian/grad_eta.hpp", "src/la/lapack.hpp"]}
{"id": "C78", "title": "Trial points computed in memory", "statement": "For views holding X, eta and directions such that eta + t Z_eta is Hermitian and the S-Gram matrix of X + t Z_X is positive definite, geodesic_us either throws because the eigensolver reported failure, or returns eigenvalues in ascending order, a unitary matrix diagonalising eta + t Z_eta, and wave functions that are S-orthonormal and equal (X + t Z_X) R U with a Hermitian positive definite R; no undefined behaviour occurs. An eigensolver that never fails exists for every order.", "quantifier": "every size fitting int, leading dimension, step, loop order, uninitialised contents, zheevd within contract", "why_tests_cant": "all eigensolver outputs within the contract cannot be enumerated", "anchors": ["src/geodesic.hpp: geodesic_us, advance_x", "src/la/lapack.hpp: loewdin", "src/la/lapack_cpu.hpp: eigh"]}
{"id": "C79", "title": "A direction followed by a trial point, in memory", "statement": "From every state as in C77, after the steepest descent direction, and after the conjugate direction provided the previous Z_eta is Hermitian, a trial point in the sense of C78 can be computed at every k-point for every step length, every Hermitian pseudo-Hamiltonian and every eigensolver within its contract: the Gram matrix never becomes singular and the only failure is one reported by the eigensolver.", "quantifier": "every state, step length, eigensolver within contract, loop order", "why_tests_cant": "unbounded step lengths and eigensolver behaviours", "anchors": ["src/mvp2/descent_direction.hpp: restarted, conjugated", "src/geodesic.hpp: geodesic_us"]}
{"id": "C80", "title": "diag and make_diag", "statement": "diag of a view returns its diagonal, also for rectangular matrices; make_diag of n numbers returns an n by n matrix with these numbers on the diagonal and zeros elsewhere, whatever the order of its loop; diag of make_diag returns the numbers. No access is out of bounds.", "quantifier": "every size fitting int, every loop order", "why_tests_cant": "every size and loop order", "anchors": ["src/la/lapack.hpp: diag, make_diag"]}
{"id": "C81", "title": "Communicator objects", "statement": "Copying, moving and assigning Communicator objects in any order, apart from moving an object onto itself, behaves like passing around values: a copy refers to the same communicator, a moved-from object refers to none; exactly the objects referring to a communicator can be asked for their size. Equality is an equivalence that holds iff both refer to the same communicator. allgather uses the container's own communicator if none is given and raises if the given one has fewer ranks. Self-move loses the communicator, and an object moved from by assignment cannot even be compared with itself (findings).", "quantifier": "every program of constructions, copies, moves and assignments", "why_tests_cant": "all programs over objects", "anchors": ["src/mpi/communicator.hpp: Communicator 20-125", "src/la/mvector.hpp: allgather 137-141"]}
{"id": "C82", "title": "Assignment of containers", "statement": "Assigning a container that is a non-const variable replaces the entries under the keys of the left hand side, adds no keys and keeps the communicator; it raises iff a key of the left hand side is missing on the right, after the entries before it have been overwritten. With equal keys the data are copied, so the state update of the main loop stores exactly the results of the line search. In general a = b does not make a equal to b: an empty left hand side stays empty (finding).", "quantifier": "all containers and keys", "why_tests_cant": "all key sets", "anchors": ["src/la/mvector.hpp: operator= 41, 94-108", "src/nlcglib.cpp: nlcg_us 385-387"]}
{"id": "C83", "title": "MPI datatypes of pairs", "statement": "For every type built from char, int, double, complex and pairs whose members follow each other without padding, sending an array with its MPI datatype delivers all bytes of all members and touches nothing outside the array, and an in-place allgatherv leaves every rank with the objects each rank contributed. The element types of all containers that can be gathered are of this kind on x86-64. A pair with padding before its second member is not delivered (e.g. pair<int,double>), and every occupation update creates three datatypes that are never freed, so that any finite supply is used up (findings).", "quantifier": "every type, array length, number of ranks, contents, ABI", "why_tests_cant": "all types and byte contents", "anchors": ["src/mpi/mpi_type.hpp: mpi_type 44-100", "src/mpi/communicator.hpp: allgather", "src/la/mvector.hpp: allgather", "src/smearing.hpp 364-365, 429-430"]}
{"id": "C84", "title": "Resources and failure reports of the device libraries", "statement": "With enough device memory and successful library calls the CUDA versions of eigh and solve_sym return; get() always returns a live library handle and keeps returning it. Each eigh leaves one and each solve_sym two device allocations behind that nothing frees, so for every amount of memory a long enough run ends in undefined behaviour; a failed diagonalisation raises on the host but is not reported on CUDA and ROCm; a failed factorisation cannot be told from a successful one; destroy() releases no handle; the workspace of zheevd_magma is shorter than announced for every n > 0 (findings).", "quantifier": "every sequence of calls, workspace sizes, memory size, status and info values", "why_tests_cant": "unbounded call sequences and device failures", "anchors": ["src/la/cuda.hpp: potrf, potrs, zheevd", "src/la/lapack_cuda.hpp: eigh, solve_sym", "src/la/lapack_rocm.hpp: eigh", "src/la/lapack_cpu.hpp: eigh", "src/la/cublas.hpp", "src/la/cusolver.hpp", "src/la/magma.cpp: zheevd_magma"]}
{"id": "C85", "title": "The step log nlcg.json", "statement": "Rank 0 appends one JSON object per logged step, holding step number, free energy, Kohn-Sham energy, entropy, slopes, Fermi energy, energy components and, in every tenth step, band energies and occupations; the other ranks write nothing. Whatever the file held before and however the ranks are scheduled, after k records the file holds exactly these k. Equal files of records with finite numbers hold the same steps and the same numbers. The records are not separated by line breaks, numbers that are not finite become null and cannot be told apart, a component name that is not valid UTF-8 ends the program, and the file name given to the logger is ignored (findings).", "quantifier": "all step data, ranks, schedules, numbers of records", "why_tests_cant": "all texts, schedules and old file contents", "anchors": ["src/utils/step_logger.hpp: StepLogger", "src/nlcglib.cpp: cg_write_step_json 97-140, nlcg_us 247"]}
{"id": "C86", "title": "Memory of the solver is not disturbed", "statement": "Computing a direction, restarted or conjugated, writes to no memory that existed before: X, H X, the previous directions and anything else reached through any reference keep their contents, and the new directions, whose values are those of C77 and C79, are in new memory. When the calling program computes the energy of a trial point, its wave function buffers hold the trial wave functions and nothing else that existed before has been written. Whatever the calling program does to its own memory, all trials of a line search start from the same X, eta and directions, and the results of every trial stay intact until the end. This depends on X being a copy: as a reference to the calling program's memory it would change during an evaluation.", "quantifier": "all sizes, numbers of k-points and ranks, heaps, references, trial steps, changes made by the calling program", "why_tests_cant": "aliasing: all heaps, all ways in which references may share memory", "anchors": ["src/la/utils.hpp: copy 168-175", "src/free_energy.hpp: compute 79-90", "src/geodesic.hpp", "src/mvp2/descent_direction.hpp: restarted, conjugated", "src/nlcglib.cpp: 289-290, 324-335, 376-425"]}
{"id": "C87", "title": "Parallel loops have no data races", "statement": "The loops run by Kokkos::parallel_for and omp parallel for - geam/add, the three scale functions, _add, deep_copy, diag, make_diag, the rows of innerh_tr, loewdin_aux, the Teter preconditioner into other memory and in place, _delta_eta and the three loops of g_eta - may distribute their iterations over any number of threads in any way and interleave their memory accesses in any order: whenever the sequential loop is defined, no two threads ever access the same element at the same time with one of them writing, no access is out of bounds, every execution ends, and the memory afterwards is that of the sequential loop. The destination's elements must be at distinct addresses and its memory must not be a source, except element by element; with overlapping columns or a transposition in place there are races.", "quantifier": "all sizes, strides, contents, distributions of iterations over threads, interleavings of single memory accesses", "why_tests_cant": "a race shows up only under some schedules and on some machines; the number of schedules is exponential", "anchors": ["src/la/lapack.hpp: parallel_for 33, 59, 89-101, 127-139, 164-170, 221-229, 276, 309, 357, 368", "src/la/cblas.hpp: geam 374-391", "src/pseudo_hamiltonian/grad_eta.hpp: 108, 152, 161, 169", "src/preconditioner.hpp: 37, 82", "src/smearing.hpp: 641, 654"]}
{"id": "C88", "title": "The distribution of the k-points over the MPI ranks does not matter up to rounding", "statement": "In exact arithmetic a whole run of nlcg_us on the same k-points distributed in any other way over any number of ranks (ranks without k-points included) has the same outcome, the same records, line searches and slopes, and leaves the caller's functional in the same state; so do dFdmu, dmu_deta, the entropy, the slopes and the directions of each k-point one by one. In binary64 the sums over k-points differ between two distributions by at most ((1+2^-53)^d + (1+2^-53)^d' - 2) times the sum of the magnitudes, d and d' being the lengths of the longest chains of additions, whatever order MPI_Allreduce uses; if the exact sum is larger than the bound its sign is right. They need not be equal: the same five contributions add up to 1 on one rank, where the line search refuses the direction, and to -1 on two.", "quantifier": "all systems, distributions, ranks, parameters and functionals; all values and reduction orders in binary64", "why_tests_cant": "tests run with one or two particular distributions and one MPI library; bitwise differences are usually tolerated", "anchors": ["src/la/mvector.hpp: sum 470-485", "src/mpi/communicator.hpp: allreduce 198-208", "src/pseudo_hamiltonian/grad_eta.hpp: 16-81", "src/mvp2/descent_direction.hpp: 81-183", "src/smearing.hpp: 595-740", "src/nlcglib.cpp: nlcg_us 214-442"]}
{"id": "C89", "title": "The reported slopes are right although the Hamiltonian changes along the curve", "statement": "For every total energy that is a function of the density matrices of all k-points, differentiable at the current densities with the Hamiltonians the functional hands to the library as derivative, the free energy along the trial curve of geodesic_us (the functional evaluating the energy of each trial density, the chemical potential keeping the electron number) has at t = 0 the slope the library reports plus the part of pairs of levels closer than 1e-10; so the steepest descent direction of a non-stationary state lowers the self-consistent free energy for all short steps, and a conjugate direction does if its slope with that part is negative.", "quantifier": "all energies, systems, ranks, sizes, states, eigensolvers and solvers meeting their contracts; smearings other than cold", "why_tests_cant": "a test uses one functional and one state and compares finite differences up to a tolerance", "anchors": ["src/mvp2/descent_direction.hpp: 81-183", "src/geodesic.hpp: geodesic_us", "src/pseudo_hamiltonian/grad_eta.hpp: 16-170", "src/free_energy.hpp: 61-103", "include/interface.hpp: EnergyBase"]}
{"id": "C90", "title": "The line search succeeds when the energy falls for long enough", "statement": "If the slope is not positive, the energy along the direction is below its start at all steps shorter than d, and 1e-8 < tau d with 0 < tau < 1, then the line search returns a point with no higher energy, asks for no restart and throws nothing; for smooth energies d is the smaller of the interval considered and 2 |slope| / K, K bounding the growth of the derivative. A run all of whose directions are like that has no failed search. Without the condition both can fail: a step may be accepted that lowers nothing although a lower trial was evaluated, and a direction with negative slope may end in a DescentError for every tau.", "quantifier": "all functionals, energies along the direction, tau, first trial steps above 1e-8, histories and numbers of iterations; exact arithmetic", "why_tests_cant": "a test follows the few directions of one system and sees neither the bound on d nor the failures beyond it", "anchors": ["src/linesearch/linesearch.hpp: 27-154", "src/nlcglib.cpp: 255-600"]}
{"id": "C91", "title": "Host, CUDA and ROCm compute the same step", "statement": "The descent directions left in memory by a restart or a conjugate step, their slope, and the properties of a trial point are the same whether the linear algebra runs on the host, on a CUDA device or on a ROCm device; whatever a step on the host returns, a device returns. The converse is false: a failed eigensolver and rejected matrix arguments are reported on the host and silent on the devices.", "quantifier": "all memory spaces, sizes, leading dimensions, contents, orders of the parallel loops, shapes of the device reductions, contents of uninitialised memory, libraries within their contracts; exact arithmetic", "why_tests_cant": "a test needs the three kinds of hardware and compares one input up to rounding; it cannot cover all reduction orders or the inputs for which the error reports differ", "anchors": ["src/la/lapack_cuda.hpp: 10-260", "src/la/lapack_rocm.hpp: 21-300", "src/la/cuda.hpp: 343-490", "src/la/rocm.hpp: 115-210", "src/la/lapack.hpp: 252-425", "src/la/lapack_cpu.hpp: 23-333", "src/geodesic.hpp: 11-170", "src/mvp2/descent_direction.hpp: 81-183"]}
{"id": "C92", "title": "What the helpers outside the runs compute", "statement": "linspace returns npoints equally spaced points from the first end to the second (in exact arithmetic), throws for a negative number, and in binary64 may miss the second end or return NaN for finite ends; flatten keeps all elements in order; check_overlap prints zero exactly if S^-1 S X = X for the k-points of the rank, which is not what its message says and not what all ranks hold.", "quantifier": "all ends and numbers of points; all lists; all k-points, sizes and operators", "why_tests_cant": "a test of linspace with round numbers does not show the lost end; a test of check_overlap with a correct inverse cannot tell the two orders of the operators apart", "anchors": ["src/la/utils.hpp: 94-105", "src/helper/funcs.hpp: 7-18", "src/nlcglib.cpp: 143-192", "src/la/lapack.hpp: 329-349"]}
{"id": "C93", "title": "A whole run in memory computes the run on matrices", "statement": "A run of nlcg_us on views with leading dimensions, uninitialised memory, parallel loops, device reductions and LAPACK calls prints exactly the numbers of the run on matrices, ends in the same way and leaves its matrices in memory, on the host, on CUDA and on ROCm. It never reaches undefined behaviour in a kernel and never passes an argument BLAS rejects; two machines with the same eigenvectors print the same numbers; the free energies recorded never increase for a functional of the density.", "quantifier": "all numbers of ranks, k-points and bands, sizes, leading dimensions, loop orders, reduction shapes, contents of fresh memory, LAPACK libraries and functionals within their contracts, step limits and line search parameters; exact arithmetic", "why_tests_cant": "a test runs one machine with one set of sizes and one schedule; it cannot show the absence of undefined behaviour for all of them nor separate an indexing error from rounding", "anchors": ["src/nlcglib.cpp: 214-442", "src/free_energy.hpp: 61-103", "src/geodesic.hpp: 11-193", "src/mvp2/descent_direction.hpp: 81-183", "src/mvp2/descent_direction_impl.hpp: 17-292", "src/la/mvector.hpp: 512-527", "src/la/lapack.hpp: 42-64", "src/linesearch/linesearch.hpp: 1-173"]}
{"id": "C94", "title": "Runs are memory safe whatever the numbers are", "statement": "A run of nlcg_us in any arithmetic, in particular in binary64, never reaches undefined behaviour in a kernel and never passes an argument BLAS rejects, even if wave functions are not orthonormal, numbers are NaN or infinite and LAPACK returns wrong results, as long as loops, LAPACK, the operators and the functional respect extents. In binary64 every such run ends: normally, with one of the documented exceptions, or in the undefined behaviour of restart = 0. Findings: a run on NaN reports success in every line search and returns normally; a functional that returns one band energy too many causes undefined behaviour.", "quantifier": "all arithmetics (the binary64 theorem: all of IEEE binary64), numbers of ranks, k-points and bands, sizes, leading dimensions, loop orders, reduction shapes, contents of all memory, LAPACK results, operators, functionals, tolerances and step limits", "why_tests_cant": "a test sees the numbers of one run; that no NaN, overflow or wrong LAPACK result ever leads out of an array has to be shown for all of them", "anchors": ["src/nlcglib.cpp: 214-442", "src/free_energy.hpp: 61-103", "src/geodesic.hpp: 11-193", "src/mvp2/descent_direction.hpp: 81-183", "src/mvp2/descent_direction_impl.hpp: 20-115", "src/la/mvector.hpp: 512-527", "src/la/lapack.hpp: 42-64", "src/linesearch/linesearch.hpp: 40-330"]}
{"id": "C95", "title": "Rounding of matrix products and slopes in double precision", "statement": "In binary64 each finite part of each element computed by the CPU kernels inner, transform and outer differs from the same expression without rounding by at most ((1+u)^n - 1) times the sum of the magnitudes added plus an underflow term, u = 2^-53, n the length of the sum plus a constant. The sum in an element obeys such a bound for every order, grouping and use of fused multiply-adds. The same holds for innerh_tr on host and devices, and for the slopes of descent_direction::restarted and ::conjugated summed over all k-points and ranks. Whether the line search refuses a direction of restarted agrees with the exact slope as soon as that exceeds the bound. Finding: within the bound the computed sign can be wrong.", "quantifier": "all matrices, extents, leading dimensions, scalars, loop orders, reduction trees of at most linear depth, ranks, k-points and finite results; NaN, infinity, overflow and underflow are covered by the finiteness of the result", "why_tests_cant": "a test compares a few matrices with a tolerance somebody chose; a bound for all of them follows only from the IEEE rounding rules", "anchors": ["src/la/lapack_cpu.hpp: 90-333", "src/la/lapack.hpp: 252-327", "src/mvp2/descent_direction_impl.hpp: 124-201", "src/mvp2/descent_direction.hpp: 81-183", "src/linesearch/linesearch.hpp: 27-35"]}
{"id": "C96", "title": "The log file nlcg.out", "statement": "After a run nlcg.out holds the text of all log statements of the run on rank 0 of MPI_COMM_WORLD in order, formatted as if inserted into one stream, the screen shows the statements with TO_STDOUT, the other ranks write nothing, and runs that converge or use up their iterations leave everything on disk. Findings: the error message of a failed run is not flushed; if nlcg_us is called again in the same process, the new stream empties the file before the old one writes its rest, so that the log of a shorter second run ends with NUL characters and the error message of the first; formats of one run stay for the next; prefixes swallow the field width; pop_prefix without prefix is undefined.", "quantifier": "all parameters, iterations, messages of line searches, endings, earlier runs and points at which the library hands buffered text over", "why_tests_cant": "a test reads the log of one run with one buffer size after the process has ended", "anchors": ["src/utils/logger.hpp: 18-118", "src/csingleton.hpp: 28-34", "src/nlcglib.cpp: 79-86", "src/nlcglib.cpp: 243-291", "src/nlcglib.cpp: 330-336", "src/nlcglib.cpp: 382-437"]}
{"id": "C97", "title": "Sizes and counts in 32-bit integers", "statement": "The offsets, counts and displacements of the k-point gathers are those of unbounded integers as long as all vectors together have at most 2^31 - 1 elements; extents and leading dimensions of caller buffers reach BLAS unchanged and element addresses do not wrap. Findings: with more elements in total the gather of vectors overflows an int although every rank has fewer; zheevd_magma overflows for every n >= 32767; make_mmatrix between memory spaces overflows and lsize() is wrong (even negative) for matrices with more than 2^31 - 1 elements, e.g. 1000000 plane waves and 3000 bands.", "quantifier": "all extents, leading dimensions, block sizes, numbers of ranks and k-points", "why_tests_cant": "the inputs on which it breaks need tens of gigabytes", "anchors": ["src/la/mvector.hpp: 147-157", "src/la/mvector.hpp: 166-186", "src/la/mvector.hpp: 215-252", "src/la/mvector.hpp: 373", "src/mpi/communicator.hpp: 128-148", "src/la/dvector.hpp: 185", "src/la/magma.cpp: 40-57", "include/interface.hpp: 49-76"]}
{"id": "C98", "title": "Starting and ending the library", "statement": "A program that uses the library on the host runs without abort, exit or undefined behaviour exactly if it starts Kokkos once (nlcglib::initialize or itself), then calculates, then ends it at most once (with MAGMA, nlcglib::finalize only after nlcglib::initialize); calls that are refused may stand anywhere. Afterwards everything is released. Findings: initialize does not ask whether Kokkos is running, so it ends the process of a calling program that has started Kokkos itself, and the library cannot be started a second time.", "quantifier": "all sequences of calls, with and without MAGMA", "why_tests_cant": "a test makes one sequence of calls per process", "anchors": ["src/nlcglib.cpp: 37-68", "src/la/magma.cpp: 10-36", "include/nlcglib.hpp: 7-8"]}
{"id": "C99", "title": "The single logger object", "statement": "However many threads call Logger::GetInstance in whatever interleaving, and however often its constructor raises, at most one object is constructed, every reference returned is to it, and every caller can be served. Finding: at the end of the program the object is destroyed while the once-flag stays set, so that a message sent later (from the destructor of another static object) goes through a null pointer.", "quantifier": "all interleavings of any number of threads and calls, all outcomes of the constructor", "why_tests_cant": "a test sees a few schedules", "anchors": ["src/csingleton.hpp: 9-35", "src/utils/logger.hpp: 18-23"]}
{"id": "C100", "title": "Copies between memory spaces that fail", "statement": "make_mmatrix into another memory space, for packed allocated buffers of the expected kind of memory, returns a mvector with an entry for every matrix of the calling program whichever of the copies fail: right where the copy succeeded, without the elements of the calling program where it failed; no exception is raised, one message is printed for each failure. Of several matrices with the same k-point index the last one is kept. A buffer in memory of another kind is refused by an exception.", "quantifier": "all numbers, shapes and contents of matrices, all subsets of copies that fail, all element types", "why_tests_cant": "copies do not fail in tests", "anchors": ["src/la/mvector.hpp: 343-377", "src/gpu/acc.cpp: 10-33"]}
{"id": "C101", "title": "Times in the log", "statement": "The times logged by nlcg_us: with a clock that is not changed during the run every message has the time of its own part (printing and line search together; all directions computed in the iteration), in every iteration of every run and whatever exception ends it; with a clock that never goes back no time is negative. Findings: the time logged for the line search includes the printing before it; high_resolution_clock need not be steady, so a clock put back gives a negative time.", "quantifier": "all numbers of iterations, all durations, all clocks, exceptions at every place", "why_tests_cant": "durations are not checked by tests", "anchors": ["src/nlcglib.cpp: 234, 369-430", "src/utils/timer.hpp: 31-57"]}
