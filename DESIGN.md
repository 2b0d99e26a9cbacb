# Formal model of ChASE in Rocq (Coq 8.16.1)

Source: `/repo` (ChASE, C++), read as text, never built. Model: `rocq/theories`. All citations `file:lines` refer to `/repo`.

## Files

`*Model.v` contain definitions only, each with a citation; `*Spec.v` small independent specifications; `*Proofs*.v` lemmas; `*Ex.v`,
`*Inst*.v`, `*Wit.v` concrete instances; `P_*.v` the property theorems, each closed by `exact lemma`, followed by `Print Assumptions`
and accompanied by an `Example` that meets the hypotheses.

| files | contents |
|---|---|
| `Base` | outcomes `Ok`/`UB`/`Fuel`, checked array accesses, counted loops |
| `Dist*`, `Grid*`, `P_Dist` | `chase_mpi_properties.hpp`: numroc, block-cyclic loops and tables, block constructors with 64-bit wrap, create2DGrid, communicators, BLACS map, NCCL ids |
| `Alg*`, `P_Alg` | `algorithm.inc`: calc_degrees, locking, filter, lanczos, solve over an abstract kernel interface (any backend, any number type); relational lemma (`AlgSim`), call log (`AlgTrace`) |
| `DlaModel` | `chase_mpi.hpp`: class ChaseMpi on top of an abstract backend |
| `Col*`, `Inpl*`, `P_Dla` | column-level models of the Seq, SeqInplace and Mpi backends; BLAS/LAPACK are oracles on columns |
| `Perf*`, `P_Perf` | `performance.hpp` |
| `Config*`, `P_Config` | `configuration.hpp`, life cycle of `chase_c.cpp` |
| `Filter*`, `Shift*`, `Cheb*`, `Exact*`, `P_Filter` | filter as three-term recurrence; exact arithmetic (mathcomp) |
| `Flat*`, `P_Flat` | element-level loops over the stored matrix: shift, symOrHermMatrix, stream file reading |
| `Async*`, `AlgSimLe`, `DlaSimLe`, `P_Async` | CUDA streams and asynchronous execution; one-sided simulation of the algorithm |
| `Redist*`, `Gather*`, `P_Redist` | C<->B redistribution schedules, gather/scatter |
| `Io*`, `P_Io` | matrix files through MPI-IO (darray/subarray views) |
| `Spmd*` | processes as programs that issue collectives on row/column communicators; all schedules of a p x q grid |
| `Ker*`, `P_Ker` | distributed kernels as such programs: apply, B2C, C2B, asynCxHGatherC, RR, Resd, cholQR variants, symmetry check |
| `Lanczos*`, `P_Lanczos` | the bound computed by the Lanczos routines |
| `Client*`, `Ds*`, `Blk*`, `SolveClient`, `P_Ds` | all calls of the distributed backend; programs of calls; the whole solver on a grid |
| `Orth*`, `Spectral`, `KyFan`, `P_Orth` | orthonormality of returned vectors, distance of returned values to the spectrum, their sums |
| `ConvSpec`, `ApproxSpec`, `AlgSpan`, `ColSpan`, `Conv*`, `P_Conv` | convergence of the block and the values at the Chebyshev rate |
| `ColRel`, `Lapack*`, `P_Lapack` | exact LAPACK, matrices against arrays of entries, the distributed solver end to end |
| `Gpu*`, `LanczosSteps`, `LanczosVec`, `AlgSim2`, `DlaSim`, `P_Gpu` | the single-GPU backend: host and device copies; multi-vector Lanczos |
| `Cuk*`, `P_Cuk` | CUDA kernels as interleaved threads |
| `Mgpu*`, `Caw*`, `AlgSim3`, `P_Mgpu` | the multi-GPU backend: host and device copies of every block; the CUDA-aware build |
| `Ffi*`, `P_Ffi` | the Fortran interface and the C functions behind it, on byte memory |
| `BlasDoc`, `Wrap*`, `WorkSpec`, `Norm*`, `P_Wrap` | the templates of `blas_templates.inc` as programs of a small statement language over documented Fortran interfaces; workspaces, leaks; loops without library calls |
| `Mat*`, `P_Mat` | the two copies of a `Matrix`, their transfers, the buffers of each mode |
| `Coll*`, `P_Coll` | `AllReduce` and `Bcast` of `mpi_wrapper.hpp`: counts, types, MPI against NCCL |
| `Sub*`, `P_Sub` | world ranks, BLACS grids, printing and devices on an arbitrary communicator |
| `Stop*`, `AlgStop`, `Back*`, `P_Stop`, `P_Back` | when the solver stops; answers of the in-place and GPU backends |
| `Deg*`, `P_Deg` | filter degrees over the real numbers |
| `Sf*`, `P_Sf`; `Si*`, `P_Si` | the sequential and the in-place backend on flat arrays with leading dimensions |
| `Sx*`, `P_Sx` | their answers with exact library calls |
| `Sg*`, `P_Sg`, `P_Sgx` | the single-GPU backend on host and device arrays, and its answers with exact library calls |
| `Su*`, `P_Su`, `P_Sux` | objects used before and lists of problems on one object, on the caller's arrays of the three backends |
| `Req*`, `P_Req` | parameters a solve cannot do without |
| `Rg*`, `P_Rg` | one distributed solver object used for several problems |
| `Dw*`, `P_Dw` | work areas of cuSOLVER in the GPU backends |
| `Rs*` | library objects of solvers (C97) |
| `Amg*` | the multi-GPU backend on the asynchronous machine (C98, C99); with exact oracles `BackAsync`, `BackAsync2` (C100) |

## Conventions

* `size_t` arithmetic that can wrap in a property is written `mod 2^64`; elsewhere `nat`, and the precondition says so.
* Floating point values in the algorithm layer are an abstract type with arbitrary (lawless) operations and boolean comparisons,
  so NaN is included, unless a theorem adds laws as explicit hypotheses (`order_on`, the exact laws of `ExactSpec`, `is_ring`).
* Undefined behaviour (out-of-bounds, null/freed pointer, failed assertion, unsigned underflow used as an index, uninitialised
  read) is the outcome `UB`; a theorem that concludes `= Ok _` includes memory safety.
* `std::sort` is any function returning a permutation sorted for the comparator (or any function at all where the theorem allows it).
* BLAS/LAPACK calls are quantified functions of their inputs; where their meaning matters it is an explicit hypothesis that an
  `Example` or instance satisfies.
* MPI collectives: `SpmdModel` gives every process a program; a step completes one collective on one communicator once all members
  have reached it with matching kind, root and count; mismatch or missing members is a stuck grid. `completes` is inductive over all
  schedules, so it includes termination and absence of deadlock.
* A property that the code violates is stated with the exact condition under which it holds, and a `_refuted` theorem gives a
  concrete witness.

## Findings

Claims a user would expect that the code does not meet. Each row has a theorem with a concrete witness; the condition under which
the claim does hold is the hypothesis of the other theorems of the same property.

| theorem | what the code does |
|---|---|
| C03_small_matrix_refuted | with fewer blocks than process rows, a process without rows writes outside its offset table |
| C04_auto_block_partition_refuted | N=5 on 4 process rows: the last local length wraps to 2^64-1 |
| C07_nonzero_source_refuted | redistribution between layouts with a nonzero source process moves the wrong rows |
| C07_long_last_piece_refuted | a user-sized block distribution whose last piece is longer is accepted, but redistribution to a different layout moves the wrong rows |
| C11_matrix_unchanged_ieee_refuted | shifting the diagonal back after the filter does not restore the user's matrix in binary64 |
| C17_unsorted_locks_unchecked_refuted, C17_ties_lock_unchecked_refuted | `locking` locks a pair whose residual it never compared |
| C19_improving_pair_locked_refuted | with degree optimisation, a pair is locked because of another pair's residual history |
| C24_residuals_unpaired_refuted | a reported residual can belong to another pair |
| C25_swap_mpi_is_identity_refuted, C25_mpi_pairs_broken_refuted | `Swap` of the distributed backend does nothing, so returned values and vectors can be mismatched |
| C26_odd_iterations_lose_vectors_refuted | in-place backend: after an odd number of iterations the caller's buffer does not hold the vectors |
| C29_inplace_refuted | in-place backend: a late failure of CholQR2 overwrites locked columns |
| C30_only_hermitian_accepted_refuted | a matrix that is not Hermitian can be accepted |
| C32_leading_dimension_refuted, C32_source_refuted | `symOrHermMatrix` with ld > local rows, or a nonzero source, gives a wrong matrix |
| C36_print_idempotent_refuted | printing the statistics changes them |
| C37_reads_before_array_refuted, C37_writes_before_array_refuted, C37_bound_uninitialised_refuted | `lanczos`: `ThetaSorted[-1]` read, `ritzv[-1]` written, lower bound left uninitialised |
| C39_bounds_the_spectrum_refuted | the "upper bound" of the single-vector Lanczos run need not bound the spectrum |
| C41_leading_dimension_refuted | reading a matrix file ignores the leading dimension |
| C42_column_major_refuted, C42_source_refuted | the block-cyclic file written on a column-major grid or with a nonzero source is not the matrix |
| C49_seq_dependent_columns_refuted | Seq `shiftedcholQR2` ignores a failed second factorisation and divides by its zero pivot; the fallback then sees NaN (the distributed version returns early) |
| C53_gpu_late_failure_reported_refuted | GPU `cholQR2` returns the status of its first factorisation only |
| C54_gpu_start_vectors_used_refuted | the GPU backend never copies the caller's start vectors to the device: a fresh object starts from zero vectors |
| C55_gpu_several_vectors_refuted | GPU `axpy_batch` uses the coefficient of the first vector for all, so Lanczos runs 2.. are wrong |
| C56_shift_of_large_matrices_refuted | `shift_matrix` kernels compute `idx * n + idx` in int: overflow for n >= 46341 |
| C58_long_random_vectors_refuted | the loop counter of the `normal` kernels overflows for more than 2^31 - 8192 entries |
| C59_last_row_lost_refuted, C59_triangle_refuted | `t_lacpy_gpu` loses rows when m is a multiple of 65535*64 (remainder 0 instead of a full block); modes U and L copy the other triangle |
| C61_trace_of_uninitialised_cell_refuted, C61_later_calls_refuted | `computeDiagonalAbsSum` on the GPU adds to a cell that is never cleared (and leaks it on the single-GPU backend) |
| C63_scalapack_build_same_as_cpu_refuted, C63_scalapack_build_fresh_object_undefined | multi-GPU with ScaLAPACK: `hhQR` does not set `isHHqr`, so RR multiplies H with the old device columns; `isHHqr` is uninitialised if Cholesky QR never ran |
| C64_cuda_aware_* | CUDA-aware build: `lockVectorCopyAndOrthoConcatswap` uses `CPY_D2H` between device pointers after every Cholesky QR; `hhQR` (LAPACK) never copies Q to the device; `initVecs` never uploads the caller's vectors; `End` downloads only nev of nev + nex columns |
| C65_lowest_eigenvalue_returned_refuted | approximate start vectors that are eigenvectors of other eigenvalues are accepted as the solution |
| C66_second_solve_refuted, C66_properties_can_be_shared_refuted | CUDA-aware `LanczosDos` allocates `d_ritzVc_` once with the size of its first use; `ChaseMpi` deletes the properties object passed to it, so two solvers on one grid object delete it twice |
| C67_no_leaks_refuted | `mLanczos` never deletes `v_0`, `v_1`, `v_2`, `v_w`; in-place `Swap` never deletes its temporary; `d_v_`, `d_w_`, `d_sum` are never freed |
| C68_counts_of_large_problems_refuted, C68_total_undefined_refuted | `get_flops`/`get_filter_flops` count single operations in 64 bits: the printed GFLOP numbers wrap for large runs and the conversion from double can be undefined |
| C69_cuda_aware_mpi_refuted, C69_cuda_aware_mpi_depends_on_timing | with `CUDA_AWARE` and MPI (no NCCL) the multi-GPU backend passes a device pointer to `MPI_Allreduce` right after the asynchronous `cublasTgemm` (`chase_mpidla_mgpu.hpp:452-494`; the synchronisation at 455 and `mpi_wrapper.hpp:153` is commented out): if the device has not finished, the partial products are reduced before they are computed |
| C71_single_complex_eigenvalues_refuted | `pcchase_init` and `pcchase_init_blockcyclic` declare `ritzv` as `REAL(c_double)` (`chase_f.f90:535,567`), the library stores floats: eigenvalues 1 and 2 are read as 2.0000005 |
| C71_declarations_agree_iff | the complex file routines declare `h` as REAL (`chase_f.f90:638,651,690,703`) |
| C72_column_major_refuted, C72_places_distinct_refuted | `grid_major` is one character in Fortran and is compared with `strcmp(grid_major, "C")` (`chase_mpi_properties.hpp:290,614`): the byte after the variable decides; if it differs between processes, two of them take the same place in the grid |
| C72_file_name_iff | file names from Fortran need a terminating zero, which the interface does not add |
| C75_gesvd_real_refuted | real `t_gesvd` passes 15 arguments to a routine with 14 (`blas_templates.inc:1352-1407`): INFO is written into `rwork`, the assertion reads an indeterminate variable |
| C75_lange_double_refuted, C75_lange_infinity_norm_refuted | `dlange` is declared to return float (`blas_fortran.hpp`); `t_lange` passes no workspace for the infinity norm (unused in the library) |
| C75_stemr_double_refuted | `t_stemr<double>` queries `FC_GLOBAL(dstemr, SSTEMR)`: where names are in upper case, the single precision routine answers |
| C75_pgqr_single_refuted | `t_pgqr<float>` uses n in place of k |
| C75_large_sizes_refuted, C77_counter_overflow_refuted | sizes are narrowed to `int` without a check; the counters of `t_norm_p2` and the complex `t_dot` overflow |
| C78_ritz_value_buffer_refuted, C78_large_sizes_refuted, C78_gpu_modes_without_cuda_refuted | the Ritz value buffer has one row and leading dimension `max_block`: a transfer would leave the array (latent: none is made); from 2^31 rows on transfers do nothing, silently; GPU modes without CUDA hand out uninitialised pointers |
| C79_large_sums_lost_refuted, C79_large_sums_truncated_refuted, C79_large_sums_abort_refuted, C79_nccl_complex_overflow_refuted | element counts are narrowed from `size_t` to `int`: a local block of 2^32 elements is not reduced at all, without an error; 2^31 aborts; complex NCCL overflows from 2^30 |
| C79_complex_product_refuted | complex types are mapped to real NCCL types: right for sums, wrong for products (latent: only sums are used) |
| C80_sub_communicator_grids_refuted, C80_output_silent_refuted | BLACS grids are built from ranks of the given communicator in a context numbered by MPI_COMM_WORLD; output is tied to world rank 0 |
| C80_too_few_devices_refuted, C80_two_solvers_on_a_node_refuted | "The ChASE will terminate" is printed, but everyone continues on device 0; disjoint communicators of a node use the same devices |
| C76_workspaces_single_refuted | `t_heevd<float>` with 2895 <= n <= 5791 passes a workspace that is one number too short if the library rounds its answer to nearest; nothing is computed and the callers ignore the status |
| C82_long_last_piece_refuted, C82_process_without_rows_refuted | ScaLAPACK descriptors: the error code of `t_descinit` is ignored; with user blocks and a last block longer than the others `hhQR` reads and writes outside of process 0's array |
| C84_inplace_session_start_vectors_refuted | in place, one object, two problems with approximate vectors: after a run that exchanged the blocks an odd number of times the caller's buffer is scratch, the vectors put there for the next problem are ignored and a wrong pair can be returned |
| C85_random_start_blocks_refuted | random start: the start columns that the DoS does not replace come from the second block, in Seq the orthonormalised vectors, in place the raw random ones |
| C86_converged_pairs_refuted | `calc_degrees` takes the absolute value of log(resid/tol): a pair already below the tolerance, waiting behind an unconverged one, gets a larger degree the smaller its residual is |
| C86_zero_residual_refuted, C86_no_extra_vectors_refuted, C86_empty_interval_refuted | degree = infinity or NaN converted to `size_t` (undefined): a waiting pair with residual 0 (log 0); nex = 0, where the last wanted Ritz value becomes the lower end of the interval (log 1 in the denominator); lowerb reset to upperb (half width 0) |
| C87_copies_overrun_when_nex_exceeds_nev | sequential backend: the copies C2, B2 have 2 nev columns but `initVecs` copies nev + nex: heap overrun for nex > nev (C27 at the level of elements) |
| C88_array_holds_the_vectors_refuted | in-place backend: after an odd number of iterations the array the caller passed holds residual vectors, not the eigenvectors (C26 at the level of elements) |
| C96_any_library_refuted | the GPU backends ask cuSOLVER for the work area of the largest eigenproblem only; a library that wanted more for a smaller one would get too little after the first pairs are locked (the size is not documented to grow) |
| C97_any_number_of_objects_refuted | `ChaseMpiProperties` never frees the communicators it creates (6 per object, the cartesian one is not even kept), `ChaseMpiDLA` none of its datatypes, both GPU backends forget `cublasH2_`, the single-GPU one also `stream_`; a program that creates distributed solvers again and again is aborted by MPI at the communicator limit |
| C90_vectors_of_the_caller_used_refuted | single-GPU backend: vectors passed for approximate mode are not uploaded and are overwritten at the end (C54 at the level of elements) |
| C92_in_place_start_vectors_refuted | in-place backend: after a solve with an odd number of iterations the object reads start vectors from its own second array, not from the one the caller fills; for diag(3, 1, 2) it returns the eigenvalue 3 where a new object returns 2 |
| C94_default_configuration_refuted | a new configuration asks for 4 Lanczos vectors (`configuration.hpp:177`), and `mLanczos` copies that many columns from and to the block of nev + nex: heap overrun in every solve from random vectors with nev + nex < 4 |
| C76_memory_left_behind | `t_gesvd` leaks its real workspace except in double complex, the ScaLAPACK templates leak one or two descriptors per call |
| C73_documented_length_refuted | `ritzv` is documented with size `nev` (`chase_f.f90:25` and siblings); every solve accesses `nev + nex` entries |

## Plan per property

| id | model | proof |
|---|---|---|
| C01 | `numroc`, spec = count of owned indices by filter over `seq 0 N` | arithmetic on complete rounds of blocks, induction over blocks |
| C02 | the r/c loops as folds building offset lists | loop invariant, list of owned blocks = filter; bijection |
| C03 | constructor with checked table writes | iff ceil(N/nb) >= p; witness |
| C04, C05 | block constructors with `mod 2^64` | partition iff; refuted witness |
| C06 | create2DGrid, MPI_Comm_split semantics (members sorted by key) | div/mod |
| C07 | run-list construction, messages as (src, pos, dst, pos) | run-length lemma; equality with ownership map |
| C08 | gather with counts/displacements | round trips in both directions, block and block-cyclic |
| C09 | `apply` as grid program over a ring with conjugation | phase lemmas per communicator, exchange of sums |
| C10 | nested block loops over checked arrays | exactly-once lemma from C02 |
| C11 | shift/unshift over any group of calls; IEEE binary formats of any precision (Flocq) with round-to-nearest-even; binary64 (SpecFloat) witness | induction over iterations, one relative error per addition; vm_compute |
| C12, C13 | filter loop with column window and degree pointer; Chebyshev polynomials over a field | loop invariant; Pell identity induction |
| C14, C15 | filter over any kernel with call log | loop invariant |
| C16 | calc_degrees exchange sort with a swap log | sort invariant, permutation |
| C17-C19 | locking with arbitrary sort oracle | prefix induction; witnesses |
| C20-C24 | solve over abstract kernel, column backends | loop invariants by induction on fuel = MaxIter |
| C25-C27, C29 | column buffers | list algebra; witnesses |
| C28 | QR decision | case analysis against a table |
| C30, C32 | matrices over a ring with involution; element loops | linear algebra; memory model for loops |
| C31 | solve prefix | frame |
| C33, C34, C47 | setters as state machine | induction over history |
| C35, C36 | decorator over any kernel and clock | induction over trace |
| C37, C38 | lanczos index arithmetic | case analysis; witnesses |
| C39 | fold of maxima; witness matrix | induction |
| C40 | handle state machine | induction over histories |
| C41 | stream reader | from C02 |
| C42 | MPI-IO views as position lists, element writes in any order | disjoint covering of the file; witnesses |
| C43 | any program of backend calls run by all processes, block-cyclic or block distribution | refinement to the global column model, call by call; confluence of schedules; the block tables are the block-cyclic ones with one block per process (`BlkProofs`), gathering without the final sort |
| C44 | int truncation | Z arithmetic |
| C45, C46 | distributed cholQR/RR as grid programs | refinement to global matrices, then matrix algebra over a commutative ring |
| C48 | `solve` turned into a program of calls (`SolveClient`), run by all processes | reification lemma per function + C43 |
| C49 | orthonormality as part of the invariant of `solve`, for abstract rules of the oracles (`ColOrth`), then for exact oracles (`OrthSpec`) | induction over the run; Gram-Schmidt argument that columns `l..` of the new Q stay orthogonal to the first `l` old columns |
| C50, C51 | the rule `value = Rayleigh quotient` added to the pairs of C23; spectral theorem for Hermitian matrices proved from `char_poly` (`Spectral`) | Parseval in an eigenbasis; kernel vector of a rectangular matrix for the count. Mpi: a second invariant for kernels whose swap moves nothing (`AlgStill`, `ColStill`, `OrthMpi`), valid when locking finds the values in order |
| C52-C54 | host/device state of the single-GPU backend (`GpuModel`): uploads, downloads, values kept on the device | simulation with the bare device in call order (`AlgSim2`, `DlaSim`), which satisfies the column rules of C22-C24; witnesses |
| C55 | `mlanczos` against the recurrence of one vector (`LanczosSteps`) | invariant of the k loop for a fixed vector; witness for the GPU |
| C56-C61 | the kernels of shift.cu as threads whose loads, stores and atomic additions interleave freely between barriers (`CukModel`) | launches without conflicting accesses commute: every run ends in the memory of the sequential order (`CukProofs1`, `CukProofs2`); loops and the tree reduction by induction |
| C62 | every block as a host and a device copy, every H2D/D2H explicit, the leftovers of local products arbitrary (`MgpuModel`) | simulation with the CPU backend whose relation depends on the stage of the iteration (`AlgSim3`): which device columns are fresh after filter, QR, RR |
| C63 | the same model with the ScaLAPACK branch of `hhQR` | witness; relation "flag unset" up to the first RR |
| C64 | device state as the CPU model's blocks, host arrays separate (`CawModel`) | inversion of the QR step; relational argument with two start blocks and two QR routines; witness; positive case: simulation by the CPU backend as in C84 |
| C65 | sorted roots of the characteristic polynomial | weights of the returned vectors in an eigenbasis lie in [0,1] and sum to k (Bessel, Parseval); witness |
| C66, C67 | heap of buffers with kind, length and liveness; shared_ptr use counts; constructors, allocating calls and destructors of all backends (`MemModel`) | invariant "use count = handles, one owner per live buffer" by induction over the calls (`MemProofs`, `MemLife`); call grammar of C20 for one Solve (`MemLog`) |
| C68 | the two counters with `mod 2^64` and binary64 (`FlopModel`) | exactness of integer operations below 2^53; relative error of the division; C35 for the link to a solve |
| C69 | host programs over CUDA streams with an adversarial scheduler (`AsyncModel`), the single-GPU backend call by call with the stream of each call, one product of the multi-GPU backend | a device whose waiting operations are totally ordered is in the same final state as program order (induction over the program); one-sided simulation `asyncD` against `gpuD` of GpuModel, lifted to `solve` |
| C70 | LAPACK as a record of documented effects on arrays (`exact_lapack`), instance over the complex numbers of any real closed field (`LapackEx`) | `ColRel`: two numeric libraries related operation by operation give related solves; `LapackProofs` relates mathcomp matrices to the entry functions of C48; the spectral theorems of C50, C51, C65 on matrices, then C48's simulation of the processes |
| C71, C72 | byte memory with inaccessible addresses, argument tables of `chase_f.f90` and `chase_c.cpp`, `strcmp` and C strings (`FfiModel`) | case analysis over routines and types; induction over stored arrays and strings; witnesses |
| C73 | `solve` of AlgModel | inversion of a returning run |
| C74 | the solver of C49; span, distance and rate as in `ApproxSpec` | `AlgSpan`: between two calls of the filter the span of the block only grows (QR, Rayleigh-Ritz, swaps), by induction over the run; the filter multiplies eigencomponents by the gain of C12, so the start combination, filtered t times and scaled, differs from the eigenvector only by damped components (Parseval); Ritz values by a dimension count (`Conv`) |
| C75, C76 | each specialisation as a list of statements (declarations, narrowing assignments, workspace allocation, assertions, calls by position) executed against a library given by documented signatures, workspace answers, minimal lengths, rounding and status (`WrapModel`, `WrapTable`, `BlasDoc`) | symbolic execution of all 76 bodies with lemmas per statement, for arbitrary arguments and libraries; arithmetic of rounding on integers (`WrapWork`) |
| C77 | the loops with an int counter compared to a 64-bit length (`NormModel`) | induction over the remaining terms; overflow by induction on the distance to INT_MAX |
| C78 | `Matrix` as two lists with leading dimensions, cuBLAS copies with narrowed arguments, constructors of each mode (`MatModel`) | loop invariants over columns and rows against an entry-wise specification; sessions by induction; modes by cases |
| C79 | buffers as lists of components per process, both libraries as documented (`CollModel`) | component-wise induction over the processes; modular arithmetic on counts |
| C80 | communicator as a list of world ranks (`SubModel`, with the grid of C06) | reduction to C06's column communicators; counting arguments for node-local ranks |
| C81 | the solver of C74, its locking and iteration limit | `Stop`: a block that is near the m lowest eigenvectors has small Ritz residuals (gap argument on the eigencomponents of the Ritz vectors); `AlgStop`: a run in which the first nev residuals are within the tolerance locks all of them, the loop ends there, by induction over the run; geometric decay for the existence of t; a restart has distance 0 |
| C82 | `t_descinit` and the three descriptor constructions, the ScaLAPACK branch of `hhQR` as: pack by descriptor, exchange, factorise (oracle), store by descriptor | block-cyclic index arithmetic against `owned`/`piece`; phases as in C43; solve level: `hhQR` is only reached with the switch set, so replacing the QR kernel leaves a returning run unchanged (`AlgQr`); eigenpairs as in C70 |
| C83 | the in-place and GPU backends of C22-C26, C52, C62; small matrix with exchanged factors (`BackSpec`), answers as `eigen_answer` (`BackSpec2`) | every QR variant as one kind of attempt on the two buffers (`InplOrth`), orthonormality added to the invariant of the run; single GPU through its bare device part, multi-GPU through C62; spectral lemmas of C50, C51, C65 |
| C84 | two objects of the column, two-block and GPU models of C22-C26, C52, C62 with different leftovers; a session = fold of load and `solve` (`ReuseSpec`) | simulation in three stages (before the start block is written, after it, after the first orthogonalisation), buffer sizes kept by every kernel; induction over the session
| C85 | the in-place and GPU models against the Seq model, `self_adjoint` oracles (`ReuseSpec`) | the same staged simulation between different backends; GPU through its bare device backend
| C86 | `calc_degrees`, `iterate`, `solve` over the reals, not finite = `None` (`DegSpec`) | closed form of T_n outside the interval (induction), cosines inside; ceil of a quotient of logarithms; C16 for the permutation, C21 for the undefined runs |
| C87 | `chase_mpidla_blaslapack_seq.hpp` on flat arrays: pointer offsets, leading dimensions, `memcpy`, library calls reading and writing only the operand their arguments address (`SfModel`) | simulation by the column backend, method by method (`flat_rel`: each array is the concatenation of the columns); solver-level simulation; safety transferred from C27 |
| C88 | `chase_mpidla_blaslapack_seq_inplace.hpp` on flat arrays: as C87, with the exchanged pointers `V1_`, `V2_`, the corner of `A_` with leading dimension nev + nex, the copies of the locked columns (`SiModel`) | simulation by the in-place column backend, method by method (`iflat_rel`); safety from the in-place part of C27 without a condition on nev and nex; parity from C26 |
| C89 | C87 and C88 with a specification of the library calls by what they are documented to do (`exact_lib`, on operands as lists of columns) and of the arrays by the matrices they hold (`matrix_of`, `vectors_of`) | the calls, read as operations on matrices (`mxb`), satisfy the exactness conditions of the column backends (C26, C83); three-step simulation arrays - columns - matrices, also of runs that stop at a late Cholesky failure; termination from C87 and C88 |
| C90 | `chase_mpidla_cuda_seq.hpp` on flat arrays: the host arrays `H_` (leading dimension `ldh_`) and `V1_`, the device arrays `d_H_` (leading dimension `N_`), `d_V1_`, `d_V2_`, `d_A_`, `d_ritz_`, `d_resids_`, upload and download, mLanczos with its device buffers (`SgModel`); work areas of cuSOLVER are in C96 | simulation by the column-level GPU backend (`gflat_rel`), method by method, the device part through C88's relation; safety from C53's invariant; leftovers from C52 and C54 |
| C91 | C90 with the library calls of C89 | related BLAS operations give related GPU backends (`SgRel`), then arrays - columns - matrices as in C89 and the answer of C83 for the GPU backend |
| C92 | C87, C88 and C90 from any object with arrays of the right sizes instead of a new one; a session is a list of problems, each written into the arrays the one before left (`SuSpec`: `load_flat`, `load_iflat`, `load_gflat`) | the simulations of C87/C88/C90 from arbitrary contents, shape preserved by a solve, the independence of C52 on columns carried over to elements; sessions by induction on the list |
| C93 | C92 with the library calls of C89 | arrays - columns - matrices from arbitrary contents (`SuProofs3`), then induction on the list of problems (`SuProofs4`) |
| C94 | the start-up of `solve` with each backend's mLanczos; nothing new is modelled | every call before mLanczos succeeds (C25's contract `dla_safe`), mLanczos with too many vectors leaves the block, without vectors the first value is missing; carried to arrays by C90 and C92 |
| C95 | the processes' programs of C48 one after the other on one set of local arrays; between two runs the caller's writes to H and C (`RgSpec`) | a used and a new global state are carried to MathComp vectors by C70's simulation and compared there by C84; sequential composition of programs that complete under every interleaving (`good_bind`), induction over the problems; eigenpairs by C70; with ScaLAPACK by C82 and the invariant that a run ends with the switch it starts with |
| C96 | the work area of both GPU backends: the queries of the constructors, every cuSOLVER call with its sizes and leading dimensions, the lengths of the device arrays, `devInfo_` (`DwModel`); the library is a function that answers any number for any query | the calls of a solve from C20's call protocol, induction over them with the invariant that the object keeps its arrays (`DwProofs`) |
| C97 | every creation and release of communicators, datatypes, BLACS contexts, NCCL communicators, cuBLAS and cuSOLVER handles, streams and files in constructors, destructors and MPI-IO routines, as operations on named handle variables over a table of library objects (`RsModel`) | counts are kept by induction over the operations; handles of one object are distinct and younger than it, so releases hit what they name; a constructor only creates, which decides the limit; induction over the objects (`RsProofs`) |
| C98 | every call of the multi-GPU backend with communication staged through the host as a program over the default stream: uploads, kernels, downloads, sums on the host copies, in the order of the code (`AmgModel`); local products and the sums are oracles tied to the whole products by `sums` (`AmgSpec`) | each call, run in program order, is that of MgpuModel on what host and device make up together (continuation lemmas, induction over the Lanczos steps); C69's theorem on programs of one stream; one-sided simulation `amgD` against `mgpuD`, lifted to `solve`; then C62 (`AmgProofs`, `AmgEx`) |
| C99 | the caller's writes to host memory between solves (`load_amg` in `AmgSpec`) on top of C98; `session` and `apart` of ReuseSpec | one problem: C98, C62 and the independence of the CPU backend from its history (C84); induction over the problems with the invariant that the object stands for some object of MgpuModel with full blocks (`AmgSess`); the single-GPU backend in the same way from C69 and C84 (`AsyncSess`) |
| C100 | the asynchronous GPU backends of C69 and C98 with the exact oracles and answers of C83 | the in-order solve returns or meets an undefined degree; it is transferred to every schedule (C69, C98) and its answer is that of C83 (`BackAsync`); random starts and lists of problems, the latter through C99 (`BackAsync2`) |

## What is modelled, what is not

Modelled line by line: `algorithm/algorithm.inc` (all functions), `algorithm/configuration.hpp` (state), `algorithm/performance.hpp`
(counters, timers, operation counts; not text formatting), `ChASE-MPI/chase_mpi.hpp`, the CPU backends
(`chase_mpidla_blaslapack_seq*.hpp` at column level, both also on flat arrays, `chase_mpidla.hpp` + `chase_mpidla_blaslapack.hpp` at column level and, for the
block-cyclic and block layouts, with and without ScaLAPACK, at element level with all communication), `chase_mpi_properties.hpp` (distribution tables,
grid, file IO), the life cycle and the argument passing of `interface/chase_c.cpp` and `interface/chase_f.f90`,
`ChASE-MPI/blas_templates.inc` (all templates; `t_descinit` in C82), `ChASE-MPI/chase_mpi_matrices.hpp` (copies, constructors, transfers;
`swap` and destructors are not), `ChASE-MPI/mpi_wrapper.hpp` (collectives in C79, Memcpy in C64).

Simplified, as noted at the definitions: MPI nonblocking operations complete at their waits; AllReduce sums in an unspecified but
fixed order over an exact ring at the element level (rounding differences between process counts are outside); BLAS/LAPACK are
functions; `std::random` numbers are arbitrary functions of process row and position; `int` casts of sizes below 2^31 are identities
except in C42, C44, C75, C78 and C79.

The kernels of shift.cu are modelled as interleaved threads (`CukModel`); the backends of C52-C55 use them as oracles.

Not modelled: the max reduction (unused), kernels of other files, weak memory effects inside a phase, streams of the multi-GPU backend in CUDA_AWARE builds beyond one product, asynchronous copies with pinned host memory, several GPUs per process, NCCL transport (beyond ids and counts), ScaLAPACK's own algorithm (its index conventions are, in C82), array descriptors of Fortran (arguments are addresses),
text output, the example drivers, memory allocation failure, threads.

## Trusted base

Coq 8.16.1's kernel (including `vm_compute`) and the manual translation from C++ to Gallina described above. Every property theorem except
`C11_matrix_drift_ieee` and those of C68 and C86 is `Closed under the global context` according to the `Print Assumptions` beneath it: no axiom is used, neither of the
standard library nor of any other library.

`C11_matrix_drift_ieee` and the theorems `C68_*` speak about IEEE formats (Flocq's `BinarySingleNaN`), whose correctness is stated over real
numbers (Coq's `Reals`); the theorems `C86_*` speak about real numbers themselves. `Print Assumptions` lists for each of these theorems exactly these axioms of the standard library, and none of Flocq:

- `ClassicalDedekindReals.sig_not_dec`
- `ClassicalDedekindReals.sig_forall_dec`
- `FunctionalExtensionality.functional_extensionality_dep`
- `Classical_Prop.classic`

mathcomp definitions are used in the `Cheb*`, `Exact*`, `Orth*`, `Lapack*`, `Back*`, `Sx*`, `KyFan` and `Spectral` files and in the last `Sg*` and `Su*` files, SpecFloat (axiom-free binary64) in the refutation of C11.
