# Design of the nlcglib verification

Source: `/repo` (C++), read as text only; nothing was built or run. All models live in `rocq/theories`
(logical name `Verif`); the property theorems are in `Properties*.v`. Each of them is
`Theorem … Proof. exact … Qed.` followed by `Print Assumptions`, with an `Example` beside it showing
that its hypotheses can be met.

## 1. Approach

* **Number types.** Control flow (line search, CG driver, chemical potential search,
  Newton search, reductions) is modelled over a record `arith` of operations and
  boolean comparisons *without any laws* (`Arith.v`). A theorem over every `arith`
  holds in particular for IEEE binary64 with NaN and infinities. Two instances are used:
  the reals (`Rarith`, for exact-arithmetic statements) and binary64
  (`F64`, Flocq with 53, 1024), for termination in doubles and NaN witnesses.
* **Undefined behaviour** is a distinct outcome constructor (`UB`), as are exceptions.
  Loops without a structural measure use fuel with a distinct `OutOfFuel`/`NoFuel` outcome;
  theorems exclude it explicitly, and C61 shows it does not occur in doubles.
* **Oracles.** SIRIUS callbacks (energy functional, H, S, preconditioner), the Hermitian
  eigensolver, Cholesky solve and MPI collectives are parameters (section variables that become
  explicit universally quantified arguments) with stated contracts, or arbitrary functions when no
  contract is needed. Stateful oracles carry an arbitrary state. The contracts are shown to be
  satisfiable: `chol_solver` (Cholesky.v) meets the solver contract for every order, `eigh_full`
  (Spectral.v) the eigensolver contract for every order and never fails (spectral theorem, proved here).
* **Specifications** are separate small definitions (e.g. derivative from Coquelicot's
  `is_derive`, matrix equations, list union) and do not use the model's helper functions.
* **Findings** are theorems named `…_refuted` (or characterising theorems of the faulty
  behaviour) with concrete witnesses; see §6.
* **Mutations.** `seeded/LOG.jsonl` records realistic bugs put into the model in a scratch copy and
  the theorems that stopped proving (or were tightened).

## 2. What is modelled for each property, and how it is proved

| property | model | method |
|---|---|---|
| C01, C02, C06, C07, C08 | `LineSearch.v`: `operator()`, `qline`, `bt_search` over any `arith`, arbitrary stateful functional, evaluation trace; `LineSearchSpec.v` says which points are tried | case analysis, induction on fuel |
| C03 | the same at R (`LineSearchReal.v`) | algebra (`field`, `nra`) |
| C04 | the same at binary64 (`LineSearchFloat.v`) and at R | the trial steps are a constant sequence whose square overflows; computation on that sequence, IEEE case analysis for every response |
| C05 | the same at R and at binary64 | geometric decrease; in binary64 strict decrease on a finite set above the cut-off (Flocq) |
| C09 | binary64 instance | witness, plus general lemma for NaN at the minimum |
| C10–C19, C63 | `Driver.v`: the loop of `nlcg_us` over any `arith` with oracles for direction, trial points, smearing; events of a run | induction over iterations, invariants on histories (`DriverProofs*.v`, `DriverRun.v`) |
| C20 | `Dispatch.v`: API entry points as functions of a build configuration | case analysis |
| C21–C25 | `ChemPot.v`: `find_chemical_potential` over any `arith`, R instance | loop induction; liveness by a contraction argument |
| C26 | `Newton.v` | loop induction |
| C27, C28, C52 | `Occupation.v`: `occupation_from_mvector`, `…_newton`, `…1`, `Smearing::fn` on keyed containers with `allgather` | composition of C21/C26/C48 |
| C29–C36, C62 | `Erf.v`, `Smearing.v` at R (Coquelicot); `SmearingProofs*.v`, `SmearingUse.v`, `SmearingFind.v`, `SmearingFacts.v` | calculus; Gaussian integral bound for erf; monotone search for C62 |
| C37, C43 | `Descent.v` (`g_eta`, `dFdmu`, `dmu_deta`), `GradEtaFacts.v` | calculus along arbitrary paths of the pseudo-eigenvalues |
| C38, C39, C41 | `Descent.v`: `lmult`, `gradx`, `precondgx_us`, `conjugatex`, `delta_eta`, `restarted`, `conjugated` on matrices of any size; `DescentProofs.v`, `DescentFacts.v` | finite-sum algebra, Cauchy–Schwarz for the chemical potential term |
| C40 | `Geodesic.v`: `advance_x`, `advance_eta`, `loewdin`, `geodesic_us` | matrix algebra from the eigensolver contract |
| C42, C64–C66 | `UsRun.v`: `Driver.v` instantiated with the models of trial points, occupations, entropy, directions; `DriverInv.v`, `UsRunProofs.v`, `UsRunFacts.v`, `UsExample.v` | run invariants |
| C67 | `UsRun.v`, `UsCount.v` (equivalence with the multi-rank models) | run invariant plus C27 |
| C44–C46 | `LapackMem.v`: flat buffers, strides, leading dimensions, out-of-bounds = UB, any order of element stores; `LapackElt.v` exact complex elements, `LapackFloat.v` pairs of doubles | index arithmetic, permutations of stores |
| C47 | `LapackMem.v` `solve_sym` with contracts for potrf/potrs; `Cholesky.v` a reference factorisation | induction on the order |
| C48, C49 | `MVector.v`, `Mpi.v` | list induction |
| C50, C51, C55 | `Containers.v` | list induction |
| C53, C68, C69 | `Exchange.v`: buffer descriptors, caller memory, host views | index arithmetic, any copy order |
| C54 | `Layout.v` with 32-bit ints | list induction |
| C56 | `EnvSwitch.v`: any number of callers on one relaxed atomic | invariant over all interleavings |
| C57 | `Logger.v`: interleaved clear/append/emit | invariants and schedules for every number of writers |
| C58 | `Format.v`: `sprintf` with %d, %s, %% | arithmetic on lengths |
| C59 | `OpIterator.v` | list induction |
| C60 | `Teter.v` at R and binary64 | calculus, Flocq |
| C61 | `Driver.v` and `LineSearch.v` at binary64 | C04, C05 and the structural bounds |
| C70 | `Curve.v`: free energy of the trial points of `geodesic_us` at a fixed Hamiltonian; `MatFun.v` (derivatives of functions of Hermitian matrices, no smooth eigenvectors assumed), `CurveProofs.v`, `CurveMain.v`; `CurveMu.v` (existence of the chemical potential), `Spectral.v` (existence of an eigensolver) | matrix calculus, implicit function argument |
| C71 | the same with the directions of `restarted` and `conjugated`, `Stationary.v` | C70, C72 and the sign of the dropped pairs |
| C72 | `Stationary.v`: minus the slope is a sum of three non-negative parts | strict monotonicity of the occupations, positive definiteness |
| C73 | `SmearFloat.v`: all smearing functions in binary64 with exp, erf, … as arbitrary functions; `FloatMono.v` (order facts of rounded operations), `SmearFloatProofs.v`, `FloatLibm.v` (correctly rounded exp and erf) | monotonicity of rounding, interval bounds on representable numbers |
| C74, C75 | `Occupation.v` and `ChemPot.v` at binary64; `CountFloat.v`, `FloatSearch.v`, `FloatLive.v`, `FloatMain.v` | monotone rounded sums; the contraction argument of C24 with rounding errors of steps and positions |
| C76 | `CountError.v` | relative error of recursive summation (Flocq), permutation of the ranks' terms |
| C77 | `StepMem.v`: the kernels of `mvp2.hpp`, `grad_eta.hpp`, `descent_direction_impl.hpp` and `descent_direction.hpp` on views in flat buffers, built from `LapackMem.v` and the operator calls of `Exchange.v`; `StepProofs.v`, `StepMain.v`, `StepLine.v`; `StepExample.v` | refinement: each kernel keeps "view holds matrix"; uniqueness of positive definite systems |
| C78 | `StepMem.v` (`eigh`, `loewdin`, `advance_x`, `geodesic_us`), `StepTrial.v` | refinement from the zheevd contract |
| C79 | `StepLine.v` | C77, tangency (C38, C41) and C78 |
| C80 | `StepMem.v` (`diag`, `make_diag`), `StepLine.v` | loop invariant over permutations |
| C81 | `Handles.v` (`hstep`, `ceq`, `clt`, `allgather_comm`), `HandlesProofs.v` | refinement of a value semantics over programs |
| C82 | `Handles.v` (`assign_lvalue`), `HandlesProofs.v` | loop invariant over the keys |
| C83 | `Datatype.v`: ABI layout, type maps, extents, byte transfer, in-place allgatherv; `DatatypeProofs.v` | induction over types; arithmetic of roundings |
| C84 | `Device.v`: ledger of device memory, library handles, reports; `DeviceProofs.v` | ledger invariant over call sequences |
| C85 | `StepLog.v`: JSON values and text, StepLogger, the file written by concurrent ranks; `StepLogProofs.v` | prefix decoding of the serialisation, invariant over schedules |
| C86 | `HeapStep.v`: the functions of `StepMem.v` on a heap with shared views, trial evaluations; `HeapProofs.v`, `HeapRun.v`, `HeapTrial.v`; `HeapExample.v` | every function refines its value version and writes only the listed allocations (frame rules), induction over k-points and trials |
| C87 | `Parallel.v`: iterations as programs of single accesses, threads, interleaving, races; `ParKernels.v`: one program per parallel loop, tied to the sequential loops of the other files; `ParExample.v` | invariant: every thread is where it would be alone on the initial memory; a defined sequential run shows that every iteration alone is defined |
| C88 | `Distribution.v`: the run of `UsRun.v` on other ranks; `Simulate.v`: two runs of the driver whose functionals look alike; `SumOrder.v`: sums over k-points in binary64 with an arbitrary reduction tree | permutation invariance of the exact sums, simulation through line search and driver; error analysis by induction over the tree (relative error of one addition from Flocq) |
| C89 | `SelfConsistent.v`: the energy is any function of the densities, differentiable at the current ones; density matrices at the trial points of `geodesic_us`; a mean-field energy as instance | the densities move at most linearly in t (matrix calculus of `MatFun.v`), so the remainder of the energy has derivative 0; the rest is C70/C71 |
| C90 | `Success.v`: the line search of `LineSearch.v` and the loop of `Driver.v` on energies that fall for a while; a bound from the growth of the derivative | induction over the backtracking steps: the first step below d is accepted and lies above tau d; invariant over the iterations for whole runs; two explicit energies for the findings |
| C91 | `DeviceStep.v`: the kernels of `lapack_cuda.hpp`, `lapack_rocm.hpp` and the device branch of `innerh_tr`; the step of `StepMem.v` with the memory space as parameter | refinement: every kernel of a device returns what the host kernel returns (`DeviceStepProofs.v`), lifted through the composition; then C77, C78 apply in every space (`DeviceSpaces.v`) |
| C92 | `Helpers.v`: `linspace`, `flatten`, `check_overlap`, `l2norm` | direct computation; the zero of a sum of squares; witnesses by evaluation in binary64 |
| C93 | `MemRun.v`: all of `nlcg_us` on views, with `FreeEnergy`, `copy`, `make_diag`, occupations, trial points and directions in memory | step-by-step relation between the two runs (SimulateRel.v), each part by the kernel lemmas of C77–C79 and C91 and the invariants of C42–C66 |
| C94 | `NumStep.v`, `NumRun.v`: the step and the whole run with the numbers left open (real and complex type, arithmetic, square root); instances exact (then it is the run of `MemRun.v`, NumExact.v) and binary64 | extents are an invariant of every kernel (ShapeStep.v) and of the run (ShapeRun.v, the run related to itself by SimulateRel.v); ends by C61; findings by evaluation of a binary64 run |
| C95 | `KernelError.v`, `SlopeError.v`, `TreeError.v` (expressions with additions, products and fused operations in any order, for other BLAS): no new code; inner, transform, outer, innerh_tr, restarted and conjugated of `LapackMem.v`, `NumStep.v` at binary64 | a calculus of accumulated relative errors (`acc`), one step per IEEE operation; the sign is refuted by a column of five numbers |
| C96 | `LogFile.v`: class Logger, the streams and formats it uses, files with positions, and the log statements of nlcg_us | invariant of a stream that writes over an old file, over all operations; findings by evaluation |
| C97 | `IntSizes.v`: the int computations of the gathers, zheevd_magma, make_mmatrix and lsize, each operation checked | induction over the blocks, compared with the unbounded model of `Mpi.v`; overflow exactly beyond the bound |
| C98 | `Lifetime.v`: initialize, finalize, the MAGMA calls in them, and the calls of a program | an automaton; the accepted call sequences are characterised in both directions by induction |
| C99 | `Singleton.v`: CSingleton::GetInstance as steps of threads, and the destruction of m_instance | invariant over all interleavings; progress by a continuation for each state of a thread |
| C100 | `DeviceCopy.v`: the copying make_mmatrix and acc::copy with a status for each copy | induction over the matrices, on the copy of C53 |
| C101 | `Laps.v`: Timer, and the loop body of nlcg_us as a sequence of work, start and stop | induction over the iterations; prefixes for exceptions |

No property is outside the reach of a model; parts that are not expressible are listed in §4.

## 3. Trusted base

* Coq 8.16.1 kernel (and `coqchk`), the standard library, Coquelicot, Flocq.
* Axioms: only those of the standard library listed per theorem in §5 (classical reals, functional
  extensionality, excluded middle, and for C70–C72 also Hilbert's epsilon / indefinite description to pick an
  eigensolver and a chemical potential).
* The reading of the C++ text: the models are hand transcriptions, with file:line cited at each
  definition. No code was executed.

## 4. Modelled / not modelled

Modelled, file by file:

* `src/linesearch/linesearch.hpp` (all), `src/nlcglib.cpp` `nlcg_us` and the API entry points;
* `src/smearing.hpp` (all smearing functions, searches, occupations, entropy; `Smearing::ek` only as a finding),
  `src/dft/newton_minimization_smearing.hpp`;
* `src/mvp2/*.hpp`, `src/pseudo_hamiltonian/grad_eta.hpp`, `src/geodesic.hpp`, `src/free_energy.hpp`;
* `src/la/mvector.hpp`, `src/la/utils.hpp` (tapply family), `src/la/layout.hpp`, `src/la/map.hpp`, `src/la/dvector.hpp` (construction from and copy to
  caller buffers), `src/la/lapack_cpu.hpp` and the matching parts of `src/la/lapack.hpp` and `cblas.hpp`;
* `src/mpi/communicator.hpp` collectives (as functions of all ranks' data);
* `src/operator.hpp`, `src/overlap.hpp`, `src/ultrasoft_precond.hpp`, `src/preconditioner.hpp`, `include/interface.hpp` (buffer protocol);
* `src/utils/env.hpp`, `logger.hpp`, `format.hpp`, `step_logger.hpp`, `timer.hpp`; `src/csingleton.hpp`;
* `src/la/lapack_cuda.hpp`, `lapack_rocm.hpp` and `src/gpu/acc.cpp` (the code calling the device libraries; C84, C91, C100).

Simplified: matrices of the descent and trial-point models are functions with dimensions (the memory level is
LapackMem.v, and StepMem.v for a whole step; C77–C79 connect the two, C93 does so for whole runs and C94 shows memory safety of runs for every arithmetic; HeapStep.v adds shared references, C86); the smearing functions and linear algebra are exact (no rounding) except where binary64 is stated (C04, C05, C09, C45, C46, C60, C61, C73–C76);
`constants::pi` is the real π and decimal literals the decimal numbers; along the curves of C70–C72 the Hamiltonian is fixed (C89 lifts this; the
self-consistent change of the Hamiltonian with the density is the caller's).

The loops run in parallel are modelled twice: one iteration after the other in any order, and interleaved access by access (Parallel.v, C87).

Not modelled: Kokkos execution and memory spaces beyond this and "same space / other
space", the insides of cuBLAS, rocBLAS, cuSOLVER and MAGMA (the code that calls them is, C84 and C91), BLAS/LAPACK
internals other than the reference Cholesky (contracts only), MPI progress and failures, SIRIUS, the digits of doubles in the step log (parameter `show`), the test programs, Python bindings.

<!-- sec5 -->
## 5. Print Assumptions per theorem

Generated from the output of the `Print Assumptions` commands.

* **no axioms** (closed under the global context):
  `C21_returns_only_solutions`, `C21_raises_only_without_solution`, `C21_returns_or_raises`, `C22_bounded`, `C25_residual_equal_to_tolerance_raises`, `C91_device_unary_minus`, `C100_failed_copies_are_returned`, `C100_mvector`, `C100_memory_of_another_kind`, `C08_failed_search_in_a_run`, `C10_convergence_flag`, `C11_budget_and_records`, `C13_exit_classification`, `C14_restart_zero_is_UB`, `C14_direction_schedule`, `C63_fletcher_reeves_chain`, `C15_C16_info_fields`, `C17_slope_exit_agrees`, `C17_descent_exit_not_lower`, `C18_last_slope_never_tested`, `C19_same_collectives`, `C20_cpu_entry`, `C20_device_entry`, `C20_mvp2_entries_raise`, `C81_value_semantics`, `C81_usable`, `C81_equality`, `C81_gather_communicator`, `C81_self_move_refuted`, `C81_moved_from_refuted`, `C81_moved_from_by_construction`, `C82_assigns_own_keys`, `C82_raises`, `C82_state_after_exception`, `C82_equal_keys`, `C82_state_update`, `C82_copies_refuted`, `C83_array_delivered`, `C83_stays_inside`, `C83_allgatherv`, `C83_types_in_use`, `C83_other_abis`, `C83_padded_pairs_not_delivered`, `C83_int_double_refuted`, `C83_types_leak`, `C83_types_run_out`, `C84_blocks_lost`, `C84_returns`, `C84_memory_exhausted`, `C84_host_reports`, `C84_device_silent`, `C84_failure_raises_refuted`, `C84_cuda_report`, `C84_failed_factorisation_silent`, `C84_handle_valid`, `C84_handle_stable`, `C84_handles_never_released`, `C84_destroy_releases_refuted`, `C84_magma_workspace_short`, `C92_linspace_negative`, `C92_flatten`, `C44_outer_reads_outside_tall_matrices`, `C44_outer_of_wide_matrices_is_rejected`, `C44_add`, `C44_add_overflows_on_large_matrices`, `C44_add_and_scale_raise`, `C45_wider_is_out_of_bounds`, `C47_info_is_ignored`, `C101_lap_times`, `C101_never_negative`, `C101_line_search_alone_refuted`, `C101_not_negative_refuted`, `C98_proper_programs`, `C98_everything_released`, `C98_second_start_aborts`, `C98_pairs_refuted`, `C01_never_accepts_higher_energy`, `C02_uphill_refused`, `C02_only_uphill_refused`, `C06_invalid_tau_reported`, `C06_valid_tau_never_reported`, `C06_reaches_the_caller`, `C07_returned_point_is_functional_state`, `C08_failed_search`, `C85_record_written`, `C85_only_rank_0_writes`, `C85_file_contents`, `C85_read_back`, `C85_documents_separable`, `C85_no_line_breaks`, `C85_invalid_name_terminates`, `C85_file_name_ignored`, `C85_non_finite_told_apart_refuted`, `C85_bands_in_every_record_refuted`, `C96_log_file`, `C96_complete_on_disk`, `C96_descent_error_kept_in_memory`, `C96_slope_error_kept_in_memory`, `C96_old_text_at_the_end`, `C96_log_of_one_run_refuted`, `C96_same_digits_refuted`, `C96_other_ranks_silent`, `C96_prefixes`, `C96_pop_without_prefix_is_undefined`, `C26_returned_charge_error`, `C26_bounded_and_only_failed_to_converge`, `C26_last_step`, `C27_own_count`, `C27_occupation_of_union`, `C28_independent_of_distribution`, `C48_scalars`, `C48_arrays`, `C48_lists`, `C49_scalars_keep_the_lowest_rank`, `C49_arrays_keep_the_highest_rank`, `C49_same_rank_wins_refuted`, `C50_tapply`, `C50_missing_key_raises`, `C50_tapply_op`, `C50_eval_keeps_entries_drops_communicator`, `C50_unzip`, `C52_missing_bands_count_as_zero`, `C55_keys_and_vectors_aligned`, `C87_fresh_matrices`, `C87_undefined`, `C94_memory_safe_in_any_arithmetic`, `C94_chemical_potential_returns_or_throws`, `C99_one_object`, `C99_callers_are_served`, `C99_after_the_end`, `C99_always_valid_refuted`, `C97_vectors_gathered`, `C97_vectors_too_long`, `C97_scalars_gathered`, `C97_magma_workspaces`, `C97_magma_large_matrices`, `C97_copied_elements`, `C97_local_size`, `C97_every_size_refuted`, `C97_matrix_addresses`, `C53_store_writes_the_addressed_elements_only`, `C53_round_trip`, `C53_strides_separate_the_elements`, `C53_memory_of_another_kind_is_refused`, `C53_missing_matrix_throws_before_writing`, `C53_copy_of_packed_buffers`, `C53_copy_of_strided_buffers_is_wrong`, `C54_slab_layout`, `C54_empty_block_list_is_undefined`, `C54_row_overflow_is_undefined`, `C54_row_positions_do_not_matter`, `C56_all_calls_agree`, `C56_sampled_once`, `C56_overlapping_first_calls_agree_refuted`, `C57_calls_that_do_not_overlap_are_logged_in_order`, `C57_overlapping_calls_lose_and_duplicate`, `C57_overlapping_calls_multiply`, `C58_safe_iff_output_is_shorter`, `C58_plain_text_overruns`, `C58_one_integer`, `C58_one_string`, `C59_complete_traversal_is_undefined`, `C59_partial_traversal`, `C59_access_by_key`, `C60_application`, `C60_application_in_place`, `C60_short_diagonal_is_undefined`, `C68_operator_application`, `C68_large_extents_become_negative`, `C69_vectors`, `C69_device_memory_is_refused`, `C69_strided_vectors_are_read_by_stride_refuted`

* `Classical_Prop.classic`:
  `C87_independent_iterations`, `C87_add`, `C87_scale_cols`, `C87_scale_beta`, `C87_scale`, `C87_underscore_add`, `C87_deep_copy`, `C87_apply_diag`, `C87_precond_in_place`, `C87_diag`, `C87_make_diag`, `C87_rows`, `C87_map`, `C87_map_into`

* `ClassicalDedekindReals.sig_forall_dec`, `FunctionalExtensionality.functional_extensionality_dep`:
  `C23_walks_towards_the_solution`, `C23_step_sizes`, `C91_failed_eigensolver_refuted`, `C91_rejected_arguments_refuted`, `C12_free_energy_non_increasing`, `C40_full_rank_along_tangents`, `C86_copy`, `C92_linspace_points`, `C92_linspace_ends`, `C44_inner`, `C44_transform`, `C44_outer_of_square_matrices`, `C44_outer_documented_refuted`, `C44_scale_columns`, `C44_scale_matrix`, `C44_unsupported_operands_raise`, `C44_inner_product_of_the_descent_model`, `C45_product_with_a_square_matrix`, `C45_extra_zero_columns`, `C45_every_product_refuted`, `C47_positive_definite_systems_are_solved`, `C03_exact_on_quadratics`, `C03_point_is_global_minimum`, `C04_stops_if_bounded_below`, `C04_exact_arithmetic_diverges_refuted`, `C05_backtracking_stops_exact`, `C05_backtracking_bound`, `C93_eigensolver`, `C26_linear_count_is_solved`, `C26_caller_tolerance_refuted`, `C27_electrons_conserved`, `C51_sum_over_all_ranks`, `C51_smaller_communicator_raises`, `C51_norms_are_rank_local`, `C51_norm_is_global_refuted`, `C87_overlapping_columns_refuted`, `C87_transposed_in_place_refuted`, `C95_size_of_the_bound`, `C35_constructor`, `C35_negative_temperature_raises_refuted`, `C77_every_point_representable`, `C77_every_matrix_an_operator`, `C80_diag`, `C80_make_diag`, `C80_diag_of_make_diag`, `C90_line_search_succeeds`, `C90_runs_without_failed_search`, `C60_entry_range`, `C60_entry_decreases`

* `ClassicalDedekindReals.sig_forall_dec`, `ClassicalDedekindReals.sig_not_dec`, `FunctionalExtensionality.functional_extensionality_dep`:
  `C24_succeeds`, `C40_zero_step_keeps_the_state`, `C92_check_overlap_meaning`, `C92_check_overlap_message_refuted`, `C92_check_overlap_local_refuted`, `C47_contracts_are_met`, `C47_failures_are_reported_refuted`, `C89_mean_field`

* `ClassicalDedekindReals.sig_forall_dec`, `Classical_Prop.classic`, `FunctionalExtensionality.functional_extensionality_dep`:
  `C87_delta_eta`, `C77_directions_determined`

* `ClassicalDedekindReals.sig_forall_dec`, `ClassicalDedekindReals.sig_not_dec`, `Classical_Prop.classic`, `FunctionalExtensionality.functional_extensionality_dep`:
  `C25_accepted_value_is_returned_refuted`, `C70_directional_derivative`, `C70_separated_levels`, `C70_restarted_slope`, `C70_conjugate_slope`, `C70_no_dropped_part`, `C72_zero_slope_means_stationary`, `C72_stationary_points_are_flat`, `C37_diagonal_gradient_is_derivative`, `C38_restarted_slope_not_positive`, `C38_negative_delta_refuted`, `C39_restarted_directions_tangent`, `C39_conjugate_directions_tangent`, `C41_conjugate_slope`, `C41_conjugate_direction`, `C43_off_diagonal_gradient`, `C43_limit_not_zero`, `C43_gradient_continuous_refuted`, `C91_restarted_directions`, `C91_restarted_same`, `C91_conjugated_same`, `C91_trial_point`, `C91_host_results_kept`, `C88_run_independent_of_distribution`, `C88_dFdmu_independent`, `C88_dmu_deta_independent`, `C88_restarted_independent`, `C88_conjugated_independent`, `C88_entropy_independent`, `C88_sum_error`, `C88_distributions_close`, `C88_sum_finite`, `C88_sum_sign`, `C88_binary64_refuted`, `C14_restart_zero_defined_refuted`, `C15_tolerance_is_residual_refuted`, `C16_fields_initialised_refuted`, `C17_maxiter_exit_agrees_refuted`, `C17_descent_exit_agrees_refuted`, `C18_last_iteration_tested_refuted`, `C61_runs_terminate_in_doubles`, `C73_occupations_in_range_and_monotone`, `C73_deltas_finite_and_nonnegative`, `C73_positive_temperature_refuted`, `C73_methfessel_paxton_delta_refuted`, `C74_residual_monotone`, `C74_every_step_towards`, `C74_steps_of_a_run`, `C75_search_succeeds_in_double`, `C75_occupations_of_a_run`, `C76_electrons_in_double`, `C40_trial_point_orthonormal`, `C86_restarted_writes_nothing_old`, `C86_conjugated_writes_nothing_old`, `C86_evaluation`, `C86_evaluations_from_the_same_point`, `C92_linspace_first`, `C92_linspace_first_refuted`, `C92_linspace_last_refuted`, `C46_add_with_beta_zero`, `C46_scale_columns_ignores_the_destination`, `C46_scale_ignores_the_destination`, `C46_elementwise_add_ignores_the_destination`, `C46_unary_minus_refuted`, `C04_growth_stops_in_doubles`, `C04_growth_stops_any_trial_step`, `C05_backtracking_stops_doubles`, `C09_nan_energy_accepted_refuted`, `C09_nan_reference_accepts_everything`, `C93_run_in_memory`, `C93_no_undefined_behaviour`, `C93_same_on_every_machine`, `C93_free_energy_never_increases`, `C52_missing_bands_reported_refuted`, `C87_g_eta`, `C95_inner_rounding`, `C95_transform_rounding`, `C95_outer_rounding`, `C95_inner_product_rounding`, `C95_restarted_slope_rounding`, `C95_conjugated_slope_rounding`, `C95_sign_beyond_the_bound`, `C95_sign_refuted`, `C95_any_expression`, `C95_any_order_of_summation`, `C42_eigensolver_arguments_hermitian`, `C42_log_entries`, `C64_trial_points_orthonormal`, `C64_overlap_positive_definite`, `C65_no_slope_error`, `C65_nonmonotone_smearing_refuted`, `C66_free_energy_never_increases`, `C67_every_evaluation_has_the_electrons`, `C67_occupations_of_all_ranks`, `C67_entropy_of_all_ranks`, `C89_directional_derivative`, `C89_energy_at_start`, `C94_every_binary64_run_ends_well`, `C94_exact_run_is_the_run_in_memory`, `C94_binary_numbers`, `C94_nan_noticed_refuted`, `C94_extents_checked_refuted`, `C29_bounds_and_monotone`, `C29_methfessel_paxton_refuted`, `C29_cold_refuted`, `C30_delta_is_the_derivative`, `C30_windows_differ`, `C31_entropy_consistent`, `C31_spline_refuted`, `C32_dxdelta_is_the_derivative`, `C32_missing_factor`, `C32_methfessel_paxton_refuted`, `C32_spline_refuted`, `C33_truncation_error`, `C34_free_energy_below_energy`, `C34_methfessel_paxton_and_cold_refuted`, `C35_negative_temperature_inverts`, `C36_particle_hole`, `C36_even_delta`, `C36_slope_in_energy`, `C36_cold_refuted`, `C36_fermi_dirac_outside_refuted`, `C62_search_succeeds`, `C77_restarted_directions`, `C77_restarted_agrees`, `C77_conjugated_agrees`, `C77_restarted_reproducible`, `C77_conjugated_reproducible`, `C78_trial_point`, `C79_restarted_then_trial`, `C79_conjugated_then_trial`, `C90_smooth_energies_fall`, `C90_accepts_without_decrease_refuted`, `C90_negative_slope_refuted`, `C60_entry_range_in_binary64`, `C60_entry_positive_in_binary64_refuted`

* `ClassicalDedekindReals.sig_forall_dec`, `ClassicalDedekindReals.sig_not_dec`, `ClassicalEpsilon.constructive_indefinite_description`, `Classical_Prop.classic`, `FunctionalExtensionality.functional_extensionality_dep`:
  `C70_chemical_potential_exists`, `C70_eigensolver_exists`, `C71_steepest_descent_lowers`, `C71_conjugate_direction_lowers`, `C72_degenerate_levels_refuted`, `C86_copy_needed`, `C89_steepest_descent_lowers`, `C89_conjugate_direction`, `C78_contract_realisable`
<!-- /sec5 -->

## 6. Findings

Each is a theorem; the claim id names it.

* Line search: the growth loop of the trial step has no bound in exact arithmetic (C04); NaN energies are accepted (C09).
* Driver: `restart = 0` divides by zero (C14); `nlcg_info.tolerance` is the slope of an earlier step (C15); `maxiter <= 0` returns
  uninitialised fields (C16); the reported F belongs to another state than the one left behind on the non-converged exits (C17);
  convergence in the last iteration is not reported (C18).
* Chemical potential: a residual exactly equal to the tolerance is rejected (C25); Newton accepts a charge error up to 1e-2 whatever the
  caller's tolerance (C26); k-points without band energies count as zero (C52).
* Smearing: Methfessel–Paxton and cold occupations leave [0, max] and are not monotone (C29); the Gaussian-spline entropy is not consistent with
  delta unless the maximal occupancy is 1 (C31); wrong second derivatives (C32); positive free-energy contribution (C34); a
  negative temperature is not rejected (C35); a positive temperature whose kT underflows is accepted and gives NaN occupations, and
  Methfessel–Paxton's delta is NaN for huge finite arguments in doubles (C73); particle-hole symmetry is lost at the cut-off of Fermi–Dirac and for cold smearing (C36).
* Directions: with a smearing whose delta is negative the steepest descent direction can go uphill, and a run is refused at its first line
  search (C38, C65). Off-diagonal gradient entries of levels closer than 1e-10 are set to zero although their limit is not
  (C43); the reported slope then is not the derivative of the free energy (C70), and a run stops as converged at a point from
  which the free energy decreases along the very direction returned (C72).
* Kernels: `outer` is wrong for tall and rejected for wide matrices (C44); index overflow in `add` for large matrices (C44); the
  allocating transform writes outside its result if B is wider than A (C45); `beta = 0` propagates NaN from uninitialised memory (C46); the
  Cholesky info is ignored (C47).
* Containers: duplicate keys are resolved differently for scalars and arrays (C49); `eval` drops the communicator (C50); norms are rank-local (C51).
* Exchange: the copy from another memory space ignores strides (C53; template not used by the library); layouts: undefined behaviour for an empty list and on overflow (C54);
  extents from 2^31 on are handed over as negative numbers (C68); strides of vectors ignored, memory type none dropped silently (C69).
* Utilities: overlapping first calls of the environment switch can disagree (C56); the logger's lock is a function declaration (C57);
  `format` overruns its buffer (C58); iterating an operator reads past the key list (C59); Teter entries become 0 or NaN for
  huge kinetic energies in doubles (C60).

* Objects and resources: self-move of a Communicator loses it and an object moved from by assignment is unusable (C81); `a = b` for
  containers does not make them equal and can leave a half-assigned container (C82); pairs with padding are sent wrongly and MPI
  datatypes are never freed (C83); every device eigh/solve_sym leaks, device failures are not reported, library handles are never
  released, MAGMA's workspace is too short (C84).
* Step log: records are not separated, non-finite numbers become `null`, a component name that is not UTF-8 ends the program,
  the file name given to `StepLogger` is ignored (C85).
* Sums over k-points in binary64 depend on the number of ranks: the contributions 2^54, 3, 3, -(2^54+8), 1 give the slope 1 on
  one rank (the line search raises SlopeError and the run ends) and -1, their exact sum, on two (C88).
* A quadratic step may be accepted without lowering the energy, next to a lower point already evaluated
  (`C90_accepts_without_decrease_refuted`): the test after the quadratic fit is `F(t_min) > F0`, and the energy at the trial point is
  forgotten. For F(t) = -t + t²/3 + 10t³/3 the search evaluates F(0.2) = -0.16, fits t_min = 0.5 and accepts F(0.5) = 0 = F(0).
* A negative slope does not protect from `DescentError` (`C90_negative_slope_refuted`): backtracking stops at 1e-8 whatever the
  scale of the direction, so a smooth energy that falls only below that length makes every search after a restart throw, which ends the run.
* Failures reported on the host are silent on the devices (`C91_failed_eigensolver_refuted`, `C91_rejected_arguments_refuted`):
  `eigh` throws on the host if zheevd fails; `lapack_cuda.hpp` and `lapack_rocm.hpp` drop the value, and the trial point is built
  from whatever is in memory. Leading dimensions that zgemm rejects (for instance 0, of a matrix without rows) leave C unchanged on
  the devices, because the status of cublasZgemm is not looked at and that of rocblas_zgemm is only printed. Conversely the unary
  minus on uninitialised memory (C46) is right on the devices (`C91_device_unary_minus`), because geam does not read C for beta = 0.
* **check_overlap prints a different quantity than it announces** (`C92_check_overlap_message_refuted`,
  `C92_check_overlap_local_refuted`): the line "S(S_inv(x)), error" shows the norm of x - S_inv(S(x)); the other product (Xref2) is
  computed and never read. For S = (2 1; 1 2), S_inv = (5/8 -1/4; -1/4 1/2), x = (1, 0) zero is printed although
  S(S_inv(x)) = (1, 1/8). Each rank prints only the error of its own k-points.
* **linspace may not end at its end** (`C92_linspace_last_refuted`, `C92_linspace_first_refuted`): linspace(0, 1, 50) ends at the
  double below 1; linspace(-2^1023, 2^1023, 3) starts with NaN because the step overflows. The function is not called.
* **A run on NaN reports success** (`C94_nan_noticed_refuted`): a run whose wave functions, H X, eigenvectors and total energies are all NaN runs to the
  iteration limit: every line search reports success (the comparisons of `linesearch.hpp` are false for NaN, C09) and
  `nlcg_us` returns normally with NaN as free energy, on the host and on devices. NaN band energies, on the other hand, end in
  the exception of the chemical potential search (C21).
* **Extents of the functional's results are trusted** (`C94_extents_checked_refuted`): the extents of what the functional returns are not checked: with one band energy more
  than there are bands a kernel writes or reads outside its matrix.
* **C95** (`C95_sign_refuted`) The slope is a sum whose terms may cancel: an inner product with a negative exact value can be
  computed as positive. A direction along which the free energy falls is then refused by the slope check of the line search
  (`linesearch.hpp` 29), which has no tolerance. `C95_sign_beyond_the_bound` says from which size on this cannot happen.
* **C96** (`C96_log_of_one_run_refuted`, `C96_old_text_at_the_end`, `C96_descent_error_kept_in_memory`, `C96_slope_error_kept_in_memory`)
  `nlcg_us` returns without flushing after it logs "[NLCG] Error: …". When it is called again in the same process,
  `attach_file_master` opens nlcg.out (emptying it) before the old stream is destroyed, which then writes the message at its old position:
  the log of a shorter second run continues with NUL characters and ends with the error of the first, even if the second converged.
* **C96** (`C96_same_digits_refuted`) `sbuf_.str("")` does not reset formats: notation and precision set by one message stay, so the
  parameters of a second run are printed in another notation than those of the first.
* **C96** (`C96_prefixes`) With prefixes each inserted item, also a manipulator, prints all prefixes, and `setw` pads the prefix.
* **C97** (`C97_vectors_too_long`, `C97_magma_large_matrices`, `C97_every_size_refuted`) Counts are kept in int: the gather of vectors over all
  ranks overflows beyond 2^31 - 1 elements in total, the workspace sizes of `zheevd_magma` for n >= 32767, and the element count of `make_mmatrix` between
  memory spaces and `lsize()` for local matrices that large. All are undefined or wrong without an error.
* **C98** (`C98_second_start_aborts`, `C98_pairs_refuted`) `nlcglib::initialize` calls `Kokkos::initialize` without asking
  `Kokkos::is_initialized`: a calling program that uses Kokkos itself is ended, and so is a second round of initialize and finalize.
* **C99** (`C99_after_the_end`, `C99_always_valid_refuted`) `CSingleton::m_instance` is destroyed with the other static objects while the
  once-flag stays set: `GetInstance` afterwards dereferences a null pointer.
* **C100** (`C100_failed_copies_are_returned`) `acc::copy` prints the error of a failed `cudaMemcpy` and goes on, so the copying `make_mmatrix`
  returns a matrix that was never filled. The template is not used by the library at this commit (free_energy.hpp calls `make_mmatrix` with one
  memory space only), so the error is latent.
* **C101** (`C101_line_search_alone_refuted`, `C101_not_negative_refuted`) The time logged for the line search includes `print_info`, which also calls the
  calling program; the clock is `high_resolution_clock`, which need not be steady, so a logged time can be negative.

Observed in the text, without a theorem: `Smearing::ek` calls `inverse_fermi_dirac` and `inverse_gaussian_spline`, which are
defined nowhere (the template compiles only as long as nobody calls it); `mvector::operator=(map&&)` has no return statement;
`Logger::flush` locks a local mutex; `Timer::start` and `Timer::stop` are
defined in a header without `inline`, which links only because a single source file of the library includes it;
`initialize` with OpenMP assigns `args.num_threads` also for Kokkos 3.7 and later, where the settings have only `set_num_threads`.
