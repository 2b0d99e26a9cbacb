{"id": "C01", "title": "Block-cyclic local sizes count exactly the owned indices", "statement": "For a block-cyclic ChaseMpiProperties, the local row (column) count get_m() (get_n()) of each grid coordinate equals the number of global indices whose block is dealt to that coordinate (block k goes to coordinate (k+src) mod p); the counts over all coordinates sum to N, and the block count get_mblocks() is the number of blocks dealt to it.", "quantifier": "all N, block size >= 1, grid extent p >= 1, source 0 <= src < p and coordinates 0 <= i < p", "why_tests_cant": "the space of (N, nb, p, src) is unbounded and the special cases (last partial block, extra blocks, wrapped source) interact; tests use one or two sizes", "anchors": ["ChASE-MPI/chase_mpi_properties.hpp: numroc", "ChASE-MPI/chase_mpi_properties.hpp: ChaseMpiProperties(block-cyclic) ctor 231-394"]}
{"id": "C02", "title": "Block-cyclic offset tables describe a bijection between local and global indices", "statement": "The tables returned by get_offs_lens (r_offs, r_lens, r_offs_l) list exactly the owned blocks in increasing order; mapping local position r_offs_l[b]+t to global r_offs[b]+t is a bijection from 0..m-1 onto the owned global indices, and every global index is held by exactly one coordinate.", "quantifier": "all N, nb, p, src and coordinates; all local positions and global indices", "why_tests_cant": "needs all sizes and all indices at once; a test checks some matrices", "anchors": ["ChASE-MPI/chase_mpi_properties.hpp: ctor 323-378", "ChASE-MPI/chase_mpi_properties.hpp: get_offs_lens"]}
{"id": "C03", "title": "Block-cyclic construction stays inside its tables", "statement": "Constructing block-cyclic properties writes only inside the allocated offset tables if and only if every process row and column owns at least one block (ceil(N/nb) >= p); with fewer blocks than process rows the constructor writes element 0 of an empty table.", "quantifier": "all N, nb, p, src and coordinates", "why_tests_cant": "an out-of-bounds write of one element is usually silent; the exact boundary needs all parameters", "anchors": ["ChASE-MPI/chase_mpi_properties.hpp: ctor 316-378 (r_offs_l_[0] = 0)"]}
{"id": "C04", "title": "Automatic block distribution partitions the matrix", "statement": "With ChaseMpiProperties(N,nev,nex,comm) the row ranges [off, off+m) of the process rows partition 0..N-1 exactly when (p-1)*ceil(N/p) <= N; otherwise the last process row computes its size by an unsigned subtraction that wraps (e.g. N=5 on 4 process rows).", "quantifier": "all N >= 1 and p >= 1 (and all coordinates), with 64-bit wrap-around explicit", "why_tests_cant": "only specific (N,p) combinations expose the wrap; tests use N much larger than p", "anchors": ["ChASE-MPI/chase_mpi_properties.hpp: block ctor 843-946"]}
{"id": "C05", "title": "User-sized block distribution partitions the matrix", "statement": "With ChaseMpiProperties(N,nev,nex,m,n,npr,npc,...) the local ranges partition the matrix iff (npr-1)*m <= N, the block size reported by every rank (get_mb) is m, and the (i/mb) mod npr ownership rule used for redistribution agrees with the ranges iff additionally N <= npr*m.", "quantifier": "all N, m >= 1, npr >= 1 and coordinates", "why_tests_cant": "correct and incorrect m differ only by arithmetic on unbounded sizes", "anchors": ["ChASE-MPI/chase_mpi_properties.hpp: block ctor 560-726", "ChASE-MPI/impl/chase_mpidla.hpp: ctor 152-236"]}
{"id": "C06", "title": "The 2D grid is a bijection of ranks and communicator ranks equal coordinates", "statement": "For both grid majors, rank -> (row, col) is a bijection onto the grid; each row communicator consists exactly of the ranks with that grid row and its k-th member has grid column k (dually for column communicators); the BLACS process map lists exactly the caller's column communicator in order.", "quantifier": "all grid extents and all ranks, both grid majors", "why_tests_cant": "tests run on 1-4 ranks; the arithmetic must hold for every grid shape", "anchors": ["ChASE-MPI/chase_mpi_properties.hpp: create2DGrid 77-155", "ChASE-MPI/chase_mpi_properties.hpp: userMap 443-457"]}
{"id": "C07", "title": "Redistribution between row- and column-distributed vectors moves every entry to its place", "statement": "B2C/C2B and the redistribution inside HEMM-based kernels deliver global row g of a vector from its owner in one layout to its owner and local position in the other layout, for every g exactly once, when the matrix starts on process (0,0) or both layouts coincide; with a nonzero row/column source and different layouts the schedule is wrong, and so it is when the last piece of a user-sized block distribution is longer than the others.", "quantifier": "all N, mb, nb, grid shapes, sources and global indices", "why_tests_cant": "communication schedules depend on lcm structure of mb, nb, p, q; only few are testable", "anchors": ["ChASE-MPI/impl/chase_mpidla.hpp: ctor 152-236", "ChASE-MPI/impl/chase_mpidla.hpp: B2C/C2B 1507-1631", "ChASE-MPI/impl/chase_mpidla.hpp: asynCxHGatherC 657-716"]}
{"id": "C08", "title": "Gathering a distributed vector block yields the global one", "statement": "collecRedundantVecs / preApplication: gathering the local pieces into a redundant global array and scattering back are mutually inverse and place local row i of coordinate r at its global row.", "quantifier": "all distributions (block and block-cyclic), all columns", "why_tests_cant": "needs all sizes and layouts", "anchors": ["ChASE-MPI/impl/chase_mpidla.hpp: collecRedundantVecs 533-628", "ChASE-MPI/impl/chase_mpidla.hpp: preApplication 424-449"]}
{"id": "C09", "title": "Distributed HEMM equals the sequential product", "statement": "One HEMM call on the 2D grid yields, on every process, the local rows of alpha*H*V + beta*W for the global matrices: the partial products are summed once and beta*W contributes exactly once.", "quantifier": "all grids, distributions, matrices, scalars alpha/beta and column ranges, over any commutative ring", "why_tests_cant": "the beta-once rule and partial sums must hold for all grid shapes and data", "anchors": ["ChASE-MPI/impl/chase_mpidla.hpp: apply 472-523", "ChASE-MPI/impl/chase_mpidla_blaslapack.hpp: apply 105-137"]}
{"id": "C10", "title": "Shift changes exactly the global diagonal", "statement": "Shift(c) adds c to H(g,g) for every global g exactly once across each process grid and changes no other entry, for block, block-cyclic and sequential storage with any leading dimension.", "quantifier": "all sizes, distributions, coordinates, matrices, shifts", "why_tests_cant": "quadruple loops over blocks; exhaustive only by proof", "anchors": ["ChASE-MPI/impl/chase_mpidla_blaslapack.hpp: shiftMatrix 144-164", "ChASE-MPI/impl/chase_mpidla_blaslapack_seq.hpp: shiftMatrix", "ChASE-MPI/impl/chase_mpidla.hpp: shiftMatrix"]}
{"id": "C11", "title": "Solve leaves the user's matrix unchanged up to rounding", "statement": "Every filter call shifts by -c and back by +c, so in exact arithmetic the matrix after Solve equals the matrix before; in IEEE arithmetic this is false (a diagonal entry may change), but off-diagonal entries are untouched and a diagonal entry h moves by at most ((1+u)^(2*iterations) - 1)(|h| + largest centre of a damped interval).", "quantifier": "all matrices, shifts, numbers of iterations, binary formats", "why_tests_cant": "exactness versus rounding cannot be separated by tests on some matrices", "anchors": ["algorithm/algorithm.inc: filter 126-184", "ChASE-MPI/chase_mpi.hpp: Shift"]}
{"id": "C12", "title": "The filter applies the scaled Chebyshev polynomial of each column's own degree", "statement": "After the filter, column i equals p_d(H) v_i with d = degrees[i] and p_d(x) = T_d((x-c)/e) / T_d((lambda_1-c)/e), c,e centre and half width of [lowerb,upperb]; in particular an eigenvector with eigenvalue x is multiplied by exactly that scalar.", "quantifier": "all fields, matrices, columns, ascending even degree vectors >= 2, intervals with nonzero denominators", "why_tests_cant": "polynomial identities for arbitrary degree and matrix are not testable", "anchors": ["algorithm/algorithm.inc: filter 120-184"]}
{"id": "C13", "title": "The filter damps the unwanted interval and amplifies below it", "statement": "For every degree, |T_d| <= 1 on [lowerb,upperb] while below lowerb it is larger than 1 in absolute value and grows monotonically with distance and with degree: components below lowerb are strictly amplified relative to those inside.", "quantifier": "all degrees, all real points, any ordered field", "why_tests_cant": "an inequality over the reals for all degrees", "anchors": ["algorithm/algorithm.inc: filter 120-184", "docs/filter.rst"]}
{"id": "C14", "title": "Matrix-vector counts equal the sum of the degrees", "statement": "A filter call performs exactly sum(degrees[i]) column multiplications, no column is multiplied more than its degree, and the performance decorator's filtered-vector counter increases by exactly this number.", "quantifier": "all ascending degree vectors with entries >= 2", "why_tests_cant": "needs all degree vectors", "anchors": ["algorithm/algorithm.inc: filter 146-178", "algorithm/performance.hpp: HEMM"]}
{"id": "C15", "title": "The filter never reads past the degree array", "statement": "With every degree >= 2 the filter reads only inside the degree array and never underflows its column counter; if all degrees are <= 1 (reachable through SetDeg(0), SetMaxDeg(0) or deg=-1 in the C interface) it runs past the array.", "quantifier": "all degree arrays", "why_tests_cant": "an out-of-bounds read is silent in tests", "anchors": ["algorithm/algorithm.inc: filter 149-155", "interface/chase_c.cpp: ChASE_SEQ_Solve 159-169"]}
{"id": "C16", "title": "Degree optimisation is a joint permutation with even bounded ascending degrees", "statement": "calc_degrees returns degrees that are even, ascending and at most MaxDeg (MaxDeg even), applies one and the same permutation to Ritz values, residuals, previous residuals and vector columns of the unlocked part, and returns the maximum degree.", "quantifier": "all inputs (Ritz values, residuals including NaN-free arbitrary reals), any nex < unconverged", "why_tests_cant": "permutation coherence for all inputs", "anchors": ["algorithm/algorithm.inc: calc_degrees 19-68"]}
{"id": "C17", "title": "Locking returns a prefix of accepted pairs", "statement": "If the unlocked Ritz values are ascending with distinct keys (as Rayleigh-Ritz delivers them), locking accepts exactly the longest prefix whose residuals are not (above tolerance and still improving) and moves nothing; for unsorted Ritz values it can lock a pair that was never checked, because the sort index is stale after the first swap.", "quantifier": "all Ritz values, residuals and tolerances; any outcome of std::sort", "why_tests_cant": "depends on data order and std::sort internals", "anchors": ["algorithm/algorithm.inc: locking 70-118"]}
{"id": "C18", "title": "A NaN residual is treated as converged", "statement": "A pair is locked unless its residual compares greater than tol; hence a NaN residual is locked and Solve may report success on NaN data.", "quantifier": "all values including NaN", "why_tests_cant": "NaN paths are rarely exercised", "anchors": ["algorithm/algorithm.inc: locking 90-98"]}
{"id": "C19", "title": "Stagnation is judged against the pair's own history", "statement": "Users expect a pair above tolerance to be locked only if its own residual stopped improving. The code compares position-wise after degree sorting and a re-sorting Rayleigh-Ritz step, so an improving pair can be locked above tolerance.", "quantifier": "all runs of the outer loop (existential witness for the violation; positive theorem when degree sorting is off)", "why_tests_cant": "needs interplay of three reorderings across iterations", "anchors": ["algorithm/algorithm.inc: calc_degrees 56-65", "algorithm/algorithm.inc: locking 90-98", "algorithm/algorithm.inc: solve 520-537"]}
{"id": "C20", "title": "Outer loop bookkeeping and termination", "statement": "In every execution locked + unconverged = nev + nex, locked never exceeds nev and never decreases, the loop stops after at most MaxIter iterations, and on exit either locked = nev or MaxIter iterations were done; the kernel's own locked counter agrees with the solver's.", "quantifier": "all kernels/backends, matrices, configurations and iteration counts", "why_tests_cant": "all executions", "anchors": ["algorithm/algorithm.inc: solve 419-553", "ChASE-MPI/chase_mpi.hpp: Lock/Start"]}
{"id": "C21", "title": "Solve is memory safe on its own arrays", "statement": "With MaxDeg >= 2, Deg >= 1, nev >= 1 and kernels that return arrays of the requested length, every access of solve (degrees, Ritz values, residuals, column indices handed to Swap/HEMM) is in range.", "quantifier": "all kernels, configurations, iteration counts", "why_tests_cant": "memory safety for all executions", "anchors": ["algorithm/algorithm.inc: solve 324-572", "algorithm/algorithm.inc: calc_degrees", "algorithm/algorithm.inc: locking", "algorithm/algorithm.inc: filter"]}
{"id": "C22", "title": "Locked eigenpairs are never changed by later iterations", "statement": "Once locked, the eigenvalue, residual and eigenvector column of a pair are not modified by any later iteration (only permuted by the final sort).", "quantifier": "all executions of the sequential backends", "why_tests_cant": "all executions, arbitrary numerical kernels incl. failed Cholesky", "anchors": ["algorithm/algorithm.inc: solve", "ChASE-MPI/impl/chase_mpidla_blaslapack_seq.hpp: apply, RR, cholQR*, lockVectorCopyAndOrthoConcatswap, Swap"]}
{"id": "C23", "title": "Returned eigenvalues are ascending and paired with their vectors", "statement": "On return GetRitzv()[0..nev) is ascending and column i of the vector buffer is the Ritz vector that Rayleigh-Ritz produced together with value i (sequential backend).", "quantifier": "all executions; totally ordered values", "why_tests_cant": "pairing must survive every swap sequence", "anchors": ["algorithm/algorithm.inc: solve 558-567", "ChASE-MPI/impl/chase_mpidla_blaslapack_seq.hpp: Swap"]}
{"id": "C24", "title": "Returned residuals belong to the returned eigenvalues", "statement": "Users read GetResid()[i] as the residual of GetRitzv()[i]. The final sort permutes values and vectors but not residuals: the residual at i belongs to the pair that was at i before the sort. So it is that of the returned pair if the values were locked in ascending order, and otherwise in general not.", "quantifier": "all executions of the sequential backends (positive theorems), witness of violation", "why_tests_cant": "only visible when locking order differs from value order", "anchors": ["algorithm/algorithm.inc: solve 558-567"]}
{"id": "C25", "title": "Swap exchanges two columns in every backend", "statement": "Swap(i,j) must exchange columns i and j. It is a transposition on both buffers in the sequential backend, but in the distributed backend the two swap triples hit the same buffer and cancel, so eigenvectors are not swapped while eigenvalues are.", "quantifier": "all buffers and index pairs", "why_tests_cant": "tests compare residual norms computed before the swap", "anchors": ["ChASE-MPI/impl/chase_mpidla.hpp: Swap 1360-1369", "ChASE-MPI/impl/chase_mpidla_blaslapack_seq.hpp: Swap 435-448", "ChASE-MPI/impl/chase_mpidla_blaslapack_seq_inplace.hpp: Swap"]}
{"id": "C26", "title": "The in-place backend returns the eigenvectors in the user's buffer", "statement": "Users (and the C interface) read eigenvectors from V1. The in-place backend exchanges its two buffer pointers once per Rayleigh-Ritz step and an even number of times per filter, so the result is in the user's buffer iff the number of iterations is even.", "quantifier": "all executions", "why_tests_cant": "depends on parity of the iteration count", "anchors": ["ChASE-MPI/impl/chase_mpidla_blaslapack_seq_inplace.hpp: apply 77-86, RR 211-231", "interface/chase_c.cpp: ChASE_SEQ"]}
{"id": "C27", "title": "Work buffers of the sequential backend hold nev+nex columns", "statement": "The sequential backend allocates 2*nev columns for its secondary buffers because constructor parameters are exchanged; all accesses stay inside iff nex <= nev.", "quantifier": "all nev, nex", "why_tests_cant": "heap overflow without crash for small sizes", "anchors": ["ChASE-MPI/impl/chase_mpidla_blaslapack_seq.hpp: ctor 34-48", "ChASE-MPI/chase_mpi.hpp: ctor 111-122"]}
{"id": "C28", "title": "QR variant selection follows the documented decision table", "statement": "QR uses Householder exactly when disabled (environment variable if set, else configuration); otherwise shifted CholeskyQR2 above the upper condition threshold, CholeskyQR1 below the lower one, CholeskyQR2 between (also for a NaN estimate), and falls back to Householder iff the Cholesky variant reports failure.", "quantifier": "all configurations, environment settings, condition estimates (incl. NaN) and factorization outcomes", "why_tests_cant": "environment x configuration x numerics", "anchors": ["ChASE-MPI/chase_mpi.hpp: QR 351-427"]}
{"id": "C29", "title": "QR preserves the locked columns", "statement": "After QR(locked, cond) the first `locked` columns are bit-identical to before in the sequential backend, whatever the factorizations return; in the in-place backend this fails when a second Cholesky factorization fails and Householder is used as fallback.", "quantifier": "all buffers, all numerical kernels, all failure combinations", "why_tests_cant": "failed second factorization is hard to trigger", "anchors": ["ChASE-MPI/impl/chase_mpidla_blaslapack_seq.hpp: cholQR1/2, shiftedcholQR2, hhQR, lockVectorCopyAndOrthoConcatswap", "ChASE-MPI/impl/chase_mpidla_blaslapack_seq_inplace.hpp: same", "ChASE-MPI/chase_mpi.hpp: QR"]}
{"id": "C30", "title": "The symmetry check accepts every Hermitian matrix", "statement": "checkSymmetryEasy returns true for every Hermitian matrix in exact arithmetic; it returns true iff (H - H^*) annihilates the one test vector, so it can accept a non-Hermitian matrix.", "quantifier": "all matrices and test vectors", "why_tests_cant": "soundness/completeness over all matrices", "anchors": ["ChASE-MPI/impl/chase_mpidla_blaslapack_seq.hpp: checkSymmetryEasy 143-187", "ChASE-MPI/impl/chase_mpidla.hpp: checkSymmetryEasy 757-820"]}
{"id": "C31", "title": "A rejected matrix leaves everything untouched", "statement": "If the symmetry check is enabled and fails, Solve returns without touching Ritz values, residuals, vectors, locked counter or performance counters (stale results stay visible).", "quantifier": "all states and backends", "why_tests_cant": "absence of effects over all state", "anchors": ["algorithm/algorithm.inc: solve 329-356"]}
{"id": "C32", "title": "Hermitianisation mirrors the chosen triangle", "statement": "symOrHermMatrix(uplo) keeps the chosen triangle and the padding rows and makes H(j,i) = conj(H(i,j)) off the diagonal. Sequentially the result is Hermitian iff the diagonal is real, and then passes the symmetry check. On a process grid this holds when every leading dimension equals the number of local rows and the first block lives on process (0,0); the diagonal then keeps its real part and the result always passes the check. With a larger leading dimension or another source process the grid version corrupts the matrix.", "quantifier": "all sizes, matrices, grids and block sizes; both uplo values; sequentially all leading dimensions", "why_tests_cant": "element-wise for all sizes", "anchors": ["ChASE-MPI/impl/chase_mpidla_blaslapack_seq.hpp: symOrHermMatrix 188-209", "ChASE-MPI/impl/chase_mpidla.hpp: symOrHermMatrix 822-888"]}
{"id": "C33", "title": "Polynomial degrees stay even under any configuration history", "statement": "After construction and any sequence of setter calls, GetDeg and GetMaxDeg are even, equal the requested value rounded up to even (modulo 2^64), and each setter changes only its own parameter.", "quantifier": "all setter sequences and values", "why_tests_cant": "all histories", "anchors": ["algorithm/configuration.hpp: ChaseConfig, SetDeg 245-249, SetMaxDeg 301-305"]}
{"id": "C34", "title": "Default configuration per scalar type matches the documentation", "statement": "For each of the four scalar types the constructor's defaults satisfy 2 <= deg <= maxDeg, both even, lanczosIter >= 1 and positive tolerance, i.e. the preconditions of the memory-safety theorem.", "quantifier": "all four scalar types, all N, nev, nex", "why_tests_cant": "links defaults to theorem preconditions", "anchors": ["algorithm/configuration.hpp: default_* and ctor"]}
{"id": "C35", "title": "Performance counters report the actual work of the last solve", "statement": "After a decorated Solve the iteration counter equals the number of executed outer iterations, the filtered-vector counter the number of filtered column products, and every timer has as many ends as starts; a second Solve resets them.", "quantifier": "all executions, also repeated", "why_tests_cant": "trace properties over all executions", "anchors": ["algorithm/performance.hpp: PerformanceDecoratorChase 373-492", "algorithm/performance.hpp: ChasePerfData"]}
{"id": "C36", "title": "Printing performance data is idempotent", "statement": "print() must not change what is reported. calculateTimings adds to the stored timings, so n calls of print report n times the measured time.", "quantifier": "all numbers of calls and measurements", "why_tests_cant": "time values are noisy", "anchors": ["algorithm/performance.hpp: print 259-296, calculateTimings 310-323"]}
{"id": "C37", "title": "Lanczos start-up indexes stay inside their arrays", "statement": "The density-of-states search must only read existing Ritz values and write inside ritzv. It reads element -1 when the first cumulative weight already exceeds twice the target, and writes ritzv[-1] when the last run's smallest value exceeds the chosen bound; otherwise all accesses are in range.", "quantifier": "all Theta, Tau values, nevex, N, number of vectors and steps", "why_tests_cant": "depends on spectrum scaling", "anchors": ["algorithm/algorithm.inc: lanczos 241-313"]}
{"id": "C38", "title": "Lanczos start-up initialises all Ritz values and only permutes columns", "statement": "When in range, lanczos assigns every ritzv[0..nevex), the first entries are Ritz values of the last run, and the interspersing step applies the same permutation to values and columns.", "quantifier": "all idx and nevex", "why_tests_cant": "all index combinations", "anchors": ["algorithm/algorithm.inc: lanczos 297-313"]}
{"id": "C39", "title": "Lanczos upper bound", "statement": "Lanczos returns the maximum over all runs of max(|theta_min|,|theta_max|)+|beta|; this dominates every Ritz value in absolute value but is not always an upper bound of the spectrum (a start vector orthogonal to the top eigenvector).", "quantifier": "all runs, all tridiagonal data", "why_tests_cant": "all spectra", "anchors": ["ChASE-MPI/chase_mpi.hpp: Lanczos 481-545"]}
{"id": "C40", "title": "C interface life cycle", "statement": "init -> any number of solves -> finalize is safe; solve before init, solve after finalize, and finalize twice touch a null or freed object, since finalize does not reset the static handle; a second init leaks the first object. The handles of different scalar types never interfere.", "quantifier": "all call sequences over all scalar types", "why_tests_cant": "all histories", "anchors": ["interface/chase_c.cpp: ChASE_SEQ, ChASE_DIST"]}
{"id": "C41", "title": "Matrix files are read into the right local positions", "statement": "readHamiltonianBlockDist/BlockCyclicDist place file element g_row + N*g_col at the local position of (g_row,g_col) of a packed local buffer, filling every local element exactly once. A buffer with a larger leading dimension is filled as if it were packed.", "quantifier": "all sizes, distributions, file contents", "why_tests_cant": "all sizes and layouts", "anchors": ["ChASE-MPI/chase_mpi_properties.hpp: readHamiltonianBlockDist 1443-1490", "ChASE-MPI/chase_mpi_properties.hpp: readHamiltonianBlockCyclicDist 1534-1590"]}
{"id": "C42", "title": "Writing and reading a distributed matrix round-trips", "statement": "Writing a distributed matrix through MPI-IO and reading it back the same way on the same grid yields the same local matrices. The written file is the matrix, column by column, for every block-block distribution, and for block-cyclic ones on row-major grids with source (0,0); on a column-major grid or with another source the block-cyclic file is not the matrix (the view is built from the plain rank and ignores irsrc/icsrc). Local blocks of 2^31 or more elements do not fit the int count.", "quantifier": "all grids, sources, matrices", "why_tests_cant": "column-major and nonzero sources rarely tested", "anchors": ["ChASE-MPI/chase_mpi_properties.hpp: writeHamiltonianBlockDist 1497-1527", "ChASE-MPI/chase_mpi_properties.hpp: writeHamiltonianBlockCyclicDist 1597-1628", "ChASE-MPI/chase_mpi_properties.hpp: readHamiltonianBlockCyclicDist 1534-1590"]}
{"id": "C43", "title": "Collective calls match within each communicator", "statement": "In every distributed kernel all members of a row (column) communicator issue the same sequence of collectives with the same root and element count, so no kernel deadlocks.", "quantifier": "all grid shapes, distributions, block ranges", "why_tests_cant": "deadlocks appear only on special grids", "anchors": ["ChASE-MPI/impl/chase_mpidla.hpp: apply, asynCxHGatherC, B2C, C2B, Resd, RR, cholQR"]}
{"id": "C44", "title": "Message counts fit the int parameter", "statement": "The element count passed to AllReduce/Bcast is m*block truncated to int; it is exact iff the product is below 2^31.", "quantifier": "all sizes", "why_tests_cant": "needs matrices above 2^31 elements", "anchors": ["ChASE-MPI/impl/chase_mpidla.hpp: apply 472-523", "ChASE-MPI/mpi_wrapper.hpp"]}
{"id": "C45", "title": "Cholesky QR orthonormalises and keeps the span", "statement": "In exact arithmetic, if the Cholesky factorization succeeds then the updated columns are orthonormal, span the same space, and leading columns that were already orthonormal are unchanged (CholQR1, CholQR2).", "quantifier": "all matrices with an upper factor R^* R = V^* V, R invertible", "why_tests_cant": "algebraic identity for all sizes", "anchors": ["ChASE-MPI/impl/chase_mpidla_blaslapack_seq.hpp: cholQR1 314, cholQR2 337, shiftedcholQR2 365"]}
{"id": "C46", "title": "Rayleigh-Ritz returns orthonormal vectors diagonalising the projected matrix", "statement": "With orthonormal input columns and an exact small eigensolver, RR returns orthonormal columns spanning the same space (over scalars where a sum of squared moduli vanishes only for zeros) with V^* H V = diag(ritzv); a zero residual means an exact eigenpair of the user's matrix.", "quantifier": "all matrices", "why_tests_cant": "algebraic identity for all sizes", "anchors": ["ChASE-MPI/impl/chase_mpidla_blaslapack_seq.hpp: RR 240, Resd 286"]}
{"id": "C47", "title": "Degree argument of the C/Fortran interface", "statement": "The C entry points convert the int degree to size_t and round it up to even, so a degree of 0 or -1 (and no other int) becomes 0; a solve with such a degree and an accepted matrix reads past the degree array.", "quantifier": "all int degree arguments, all backends respecting the kernel contract, all matrices", "why_tests_cant": "needs the conversion over the whole int range and undefined behaviour", "anchors": ["interface/chase_c.cpp: ChASE_SEQ_Solve 160-172", "algorithm/configuration.hpp: SetDeg 245-249", "algorithm/algorithm.inc: filter 146-178"]}
{"id": "C48", "title": "A distributed solve returns the solve of the whole matrix", "statement": "When all processes of a grid run solve on their parts of a matrix, every interleaving of the communication ends, all processes return the same Ritz values, residuals and number of converged pairs, these are the values one run over the undistributed matrix and vectors returns, and each process ends with its rows of the resulting vectors.", "quantifier": "all grids, block-cyclic and block distributions, block sizes, source processes, matrices, start vectors, configurations and BLAS/LAPACK results in exact arithmetic, all schedules", "why_tests_cant": "all grids and schedules; a mismatch between local control flow decisions deadlocks only on some grids", "anchors": ["ChASE-MPI/impl/chase_mpidla.hpp: ChaseMpiDLA", "ChASE-MPI/chase_mpi.hpp: ChaseMpi", "algorithm/algorithm.inc: solve 324-572", "ChASE-MPI/chase_mpi_properties.hpp: block ctors 560-726, 850-1015"]}
{"id": "C49", "title": "The returned vectors are orthonormal", "statement": "In exact arithmetic the nev+nex vectors a solve leaves behind are orthonormal: locked vectors stay orthogonal to those orthonormalised, rotated, exchanged and locked later, whichever QR variant each iteration chooses. On Seq this excludes runs in which the shifted Cholesky QR meets a second factorisation that fails, because Seq then goes on with the failed factor.", "quantifier": "all Hermitian matrices, start vectors, configurations and all numbers of iterations; all oracles that factorise and diagonalise exactly", "why_tests_cant": "needs every choice of QR variants and locking orders over any number of iterations", "anchors": ["ChASE-MPI/impl/chase_mpidla_blaslapack_seq.hpp: hhQR, cholQR1, cholQR2, shiftedcholQR2 310-433, RR 240, LockVectorCopyAndOrthoConcatswap 428", "ChASE-MPI/impl/chase_mpidla.hpp: same 1100-1369", "algorithm/algorithm.inc: solve 324-572, locking 68-115"]}
{"id": "C50", "title": "An eigenvalue lies within the reported residual of every returned value", "statement": "In exact arithmetic every returned value is the Rayleigh quotient of the unit vector returned with it, its residual is ||Hx - vx||, and some eigenvalue of the user's matrix is at most that residual away. On the Mpi backend, whose column swap does nothing, values correspond to columns and residuals up to one common permutation, provided the small eigenvalue problems deliver ascending values and sorting leaves ascending values in place.", "quantifier": "all real symmetric and complex Hermitian matrices, all solves on Seq or Mpi that return (as C49)", "why_tests_cant": "a test compares against one known spectrum; the bound holds for all matrices", "anchors": ["algorithm/algorithm.inc: solve 324-572", "ChASE-MPI/impl/chase_mpidla_blaslapack_seq.hpp: RR 240, Resd 286", "ChASE-MPI/impl/chase_mpidla.hpp: RR 952, Resd 984, Swap 1360"]}
{"id": "C51", "title": "No eigenvalue is returned twice", "statement": "In exact arithmetic, for every interval, the matrix has at least as many eigenvalues (with multiplicity) in the interval widened by the root of the sum of the squared residuals as there are returned values in it.", "quantifier": "all real symmetric and complex Hermitian matrices, all intervals, all solves on Seq or Mpi that return (as C50)", "why_tests_cant": "clusters and multiplicities of all sizes", "anchors": ["algorithm/algorithm.inc: solve 324-572", "ChASE-MPI/impl/chase_mpidla_blaslapack_seq.hpp: RR 240, Resd 286", "ChASE-MPI/impl/chase_mpidla.hpp: RR 952, Resd 984, Swap 1360"]}
{"id": "C52", "title": "The GPU backend returns ascending values with their vectors in the caller's buffer", "statement": "After a solve on the single-GPU backend that was not rejected, the nev returned values ascend, and column i of the caller's host buffer (whatever the parity of the iteration count, and whatever earlier solves left on the device) is the Ritz vector of value i for the caller's matrix; residuals belong to the pair they are reported with when pairs were locked in ascending order. The caller's matrix is never modified (shifts happen on the device copy), and host and device vectors agree at the end.", "quantifier": "all matrices, configurations, oracles of the numerical libraries, initial object states and iteration counts; no failing factorisation after a successful shifted one", "why_tests_cant": "depends on iteration parity, on stale device contents and on the order of locking", "anchors": ["ChASE-MPI/impl/chase_mpidla_cuda_seq.hpp: initVecs 273, shiftMatrix 305, RR 447-500, Resd 502-519, End 405-409", "algorithm/algorithm.inc: solve 324-572"]}
{"id": "C53", "title": "The GPU backend keeps locked pairs and stays inside its buffers", "statement": "On the single-GPU backend a locked value, residual and device column never change during the rest of the solve, and with approximate start vectors no operation reads or writes outside the device or host blocks. A factorisation that fails in the second step of CholQR2 is not reported by this backend.", "quantifier": "all runs, all pairs of iterations", "why_tests_cant": "quantifies over all runs and all outcomes of the numerical libraries", "anchors": ["ChASE-MPI/impl/chase_mpidla_cuda_seq.hpp: cholQR2 587-650, shiftedcholQR2 651-741, lockVectorCopyAndOrthoConcatswap 773-777, Swap 779-787"]}
{"id": "C54", "title": "What a GPU solve depends on", "statement": "The result of a solve on the single-GPU backend depends on the caller's matrix and on the vectors on the device only: neither the matrix and the values an earlier solve left on the device nor the caller's vectors matter. A fresh object therefore ignores the approximate eigenvectors of the caller even when told to use them (finding).", "quantifier": "all pairs of objects that differ in the irrelevant parts", "why_tests_cant": "non-interference over all states", "anchors": ["ChASE-MPI/impl/chase_mpidla_cuda_seq.hpp: constructor 167-240, initVecs 273-278", "ChASE-MPI/chase_mpi_matrices.hpp: GpuMem"]}
{"id": "C55", "title": "Lanczos runs started together do not influence each other", "statement": "The tridiagonal matrix and the last beta that a multi-vector Lanczos call returns for start vector i are those of the three-term recurrence started from vector i alone, on every CPU backend; on the GPU backend this holds for a single vector only (finding).", "quantifier": "all matrices, numbers of steps and of vectors, all start vectors", "why_tests_cant": "independence for all numbers of vectors", "anchors": ["ChASE-MPI/impl/chase_mpidla_blaslapack_seq.hpp: mLanczos", "ChASE-MPI/impl/chase_mpidla.hpp: mLanczos", "ChASE-MPI/impl/chase_mpidla_cuda_seq.hpp: mLanczos 802-903, axpy_batch 971-979"]}
{"id": "C56", "title": "Shifting the matrix on one GPU touches exactly its diagonal", "statement": "Whatever the order in which the threads of the launch run, the kernel that shifts an n x n matrix on the device adds the shift to every diagonal entry once and changes nothing else, for n up to 46340. For larger n the index of a diagonal entry overflows int and some execution reaches undefined behaviour (finding).", "quantifier": "all matrices, all n, all interleavings of all threads", "why_tests_cant": "the order of threads is not under a test's control; the overflow needs n > 46340", "anchors": ["ChASE-MPI/kernels/shift.cu: *shift_matrix 702-728, chase_shift_matrix 1145-1171", "ChASE-MPI/impl/chase_mpidla_cuda_seq.hpp: shiftMatrix, shiftMatrixForQR"]}
{"id": "C57", "title": "Shifting a distributed matrix on several GPUs touches exactly the global diagonal", "statement": "With the offset tables built at construction, the launches on all processes add the shift once to every diagonal entry of the distributed matrix and change no other entry and no padding, for block and block-cyclic distributions and any interleaving of the threads.", "quantifier": "all sizes, block sizes, grids, source processes, leading dimensions, interleavings", "why_tests_cant": "all grids and layouts", "anchors": ["ChASE-MPI/kernels/shift.cu: *shift_mgpu_matrix 730-780", "ChASE-MPI/impl/chase_mpidla_mgpu.hpp: 346-371, shiftMatrix 507"]}
{"id": "C58", "title": "Random start vectors on the GPU fill the whole buffer", "statement": "The generator launch writes every one of the n entries exactly once, with draw i/8192 of stream i mod 8192, and nothing behind them, for n up to 2^31-8192; for longer buffers the loop counter overflows (finding).", "quantifier": "all n, all generators, all interleavings", "why_tests_cant": "the bound is beyond 2^31 elements", "anchors": ["ChASE-MPI/kernels/shift.cu: *_normal_kernel 632-700, chase_rand_normal 1119-1143", "ChASE-MPI/impl/chase_mpidla_cuda_seq.hpp: initRndVecs", "ChASE-MPI/impl/chase_mpidla_mgpu.hpp: initRndVecs"]}
{"id": "C59", "title": "Copying a matrix block on the GPU", "statement": "t_lacpy_gpu copies every entry of an m x n block between two leading dimensions and changes nothing else, for sizes that are not multiples of 4194240. When m is such a multiple the last rows are not copied, and the modes U and L copy the other triangle than their name says (findings).", "quantifier": "all sizes below the int range, leading dimensions, contents, interleavings", "why_tests_cant": "needs millions of rows, and all interleavings", "anchors": ["ChASE-MPI/kernels/shift.cu: lacpy kernels 223-629, t_lacpy_gpu 850-1117", "ChASE-MPI/impl/chase_mpidla.hpp: 687-703, 1573-1588"]}
{"id": "C60", "title": "Residuals computed on the GPU", "statement": "The residual kernel returns, for every column, a sum over all rows of the squared differences |A - ritzv*B|, each row once, added in an order that depends on the number of rows only; results are reproducible for every interleaving, and with exact addition they are the squared norm (or its root).", "quantifier": "all sizes, strides, contents, interleavings", "why_tests_cant": "reproducibility over all schedules cannot be tested", "anchors": ["ChASE-MPI/kernels/shift.cu: *_resids_kernel 98-221, cuda_sum_reduce 25-40, residual_gpu 818-848", "ChASE-MPI/impl/chase_mpidla_cuda_seq.hpp: Resd", "ChASE-MPI/impl/chase_mpidla_mgpu.hpp: Resd"]}
{"id": "C61", "title": "Sum of absolute diagonal entries on the GPU", "statement": "The trace kernel adds the sum of the absolute values of the diagonal to what the result cell contains. The callers do not clear the cell, so the shift of the shifted Cholesky QR is wrong unless the fresh allocation happens to contain zero, and on the multi-GPU path it accumulates over calls (finding).", "quantifier": "all matrices and initial contents, all interleavings", "why_tests_cant": "depends on the content of uninitialised memory", "anchors": ["ChASE-MPI/kernels/shift.cu: *_absTraceKernel 58-96, absTrace_gpu 782-816", "ChASE-MPI/impl/chase_mpidla_cuda_seq.hpp: computeDiagonalAbsSum 921-927", "ChASE-MPI/impl/chase_mpidla_mgpu.hpp: 375, computeDiagonalAbsSum 859-863"]}
{"id": "C62", "title": "The multi-GPU backend returns what the CPU backend returns", "statement": "A solve on the multi-GPU backend (host-staged communication, LAPACK QR) returns exactly the values, residuals and vectors, and the same early return, that the distributed CPU backend returns from the same host data, whatever the device memory holds before; the caller's matrix is not changed, locked pairs never change, and all buffers are large enough.", "quantifier": "all matrices, sizes, configurations, host and device contents (fresh or reused objects), all library routines whose products ignore the destination when its factor is zero and whose second Cholesky factorisation does not fail", "why_tests_cant": "correctness depends on which of about twenty host/device copies are stale at each of unboundedly many steps, and on arbitrary leftovers in device memory", "anchors": ["ChASE-MPI/impl/chase_mpidla.hpp", "ChASE-MPI/impl/chase_mpidla_mgpu.hpp", "ChASE-MPI/impl/chase_mpi_matrices.hpp: Matrix::H2D, D2H"]}
{"id": "C63", "title": "Multi-GPU backend with ScaLAPACK", "statement": "The build with ScaLAPACK returns what the CPU backend returns. This fails (finding): the Householder QR of that build neither uploads its result nor sets the flag that makes the Rayleigh-Ritz step upload it, so old device columns are paired with new host columns; and with Cholesky QR disabled a fresh object reads the flag uninitialised on every input.", "quantifier": "refutation by a concrete matrix; for the uninitialised flag all inputs", "why_tests_cant": "an uninitialised flag is usually zero or non-zero by accident, so a test passes or fails at random", "anchors": ["ChASE-MPI/impl/chase_mpidla.hpp: hhQR 1054-1118, RR 952-982, isHHqr 1759", "ChASE-MPI/impl/chase_mpidla_mgpu.hpp: asynCxHGatherC 512-534"]}
{"id": "C64", "title": "Multi-GPU backend with CUDA-aware communication", "statement": "The CUDA-aware build orthonormalises the search space and starts from the caller's vectors. Both fail (findings): after a successful Cholesky QR the backend calls cudaMemcpy with the direction device-to-host on two device pointers, so no solve with Cholesky QR is defined; without ScaLAPACK the Householder QR has no effect on the result at all; the caller's start vectors have no effect. In the remaining build, with ScaLAPACK and Cholesky QR disabled, values, residuals and the first nev vectors are those of the CPU backend started from the vectors on the device.", "quantifier": "all matrices, sizes, configurations, device contents, library routines", "why_tests_cant": "a test cannot show that no input works, nor that an input has no influence", "anchors": ["ChASE-MPI/impl/chase_mpidla.hpp: lockVectorCopyAndOrthoConcatswap 1344-1358, memcpy_mode 325-329, hhQR 1054-1118", "ChASE-MPI/impl/chase_mpidla_mgpu.hpp: initVecs 404-415, End 563-568"]}
{"id": "C65", "title": "The returned values against the lowest eigenvalues", "statement": "In exact arithmetic the sum of any k of the returned eigenvalues is at least the sum of the k lowest eigenvalues of the matrix (counted with multiplicity) and at most the sum of the k highest. That the returned values are the lowest ones is not guaranteed (finding): eigenvectors of other eigenvalues given as approximate start vectors are accepted after one iteration with residual 0.", "quantifier": "all Hermitian matrices, sizes, start vectors, configurations (nex <= nev on Seq), all runs on Seq or Mpi that return, all subsets of the returned pairs", "why_tests_cant": "an inequality for all matrices and all subsets; the spectrum of a test matrix is known only to rounding", "anchors": ["algorithm/algorithm.inc: solve", "ChASE-MPI/impl/chase_mpidla_blaslapack_seq.hpp: QR, RR", "ChASE-MPI/impl/chase_mpidla.hpp: RR 952, Resd 984, Swap 1360"]}
{"id": "C66", "title": "Memory of a solver is allocated, used and freed correctly", "statement": "From construction through any sequence of calls to destruction a solver never frees a buffer twice or with the wrong function, never uses a buffer it has freed and leaves the buffers of its caller allocated; with MPI it deletes the properties object it was given. The only undefined case is the CUDA-aware multi-GPU backend when a later density-of-states call needs more coefficients than the first one (finding: the device buffer keeps the size of its first use, so a second Solve on one object can overflow it; a single Solve cannot). A properties object cannot serve two solvers (finding: the second one deletes it again).", "quantifier": "all backends (LAPACK, in-place, single GPU, MPI CPU, MPI multi-GPU with and without CUDA-aware MPI), all sizes, all states of the heap with valid user buffers, all sequences of calls; for the single Solve all kernels, configurations and QR decisions", "why_tests_cant": "double frees and overflows on rare call sequences are invisible without a sanitizer and an exhaustive set of sequences; GPU builds do not run in CI", "anchors": ["ChASE-MPI/chase_mpi_matrices.hpp: CpuMem, GpuMem, Matrix, ChaseMpiMatrices", "ChASE-MPI/chase_mpi.hpp: ChaseMpi constructors, destructor", "ChASE-MPI/impl/chase_mpidla_mgpu.hpp: LanczosDos, ~ChaseMpiDLAMultiGPU"]}
{"id": "C67", "title": "What a destroyed solver leaves allocated", "statement": "The number of elements still allocated after the destruction of a solver is exactly the sum of fixed amounts per call; calls without a raw new leave nothing. That nothing is left behind in general is false (finding): every Lanczos run leaves its three (MPI: four) work matrices, every Swap of the in-place backend one column, every shifted CholeskyQR2 of the single-GPU backend one element and every multi-GPU object its vectors d_v_ and d_w_. One Solve leaves exactly 3*N*numvec elements with the LAPACK backend, (3*m+n)*numvec with MPI, and so on.", "quantifier": "all backends, sizes, heaps, call sequences; for one Solve all kernels, configurations and QR decisions", "why_tests_cant": "leaks have no functional effect and the exact amount depends on the whole call sequence", "anchors": ["ChASE-MPI/impl/chase_mpidla_blaslapack_seq.hpp: mLanczos, Swap", "ChASE-MPI/impl/chase_mpidla_blaslapack_seq_inplace.hpp: mLanczos, Swap", "ChASE-MPI/impl/chase_mpidla_cuda_seq.hpp: mLanczos, computeDiagonalAbsSum", "ChASE-MPI/impl/chase_mpidla.hpp: mLanczos", "ChASE-MPI/impl/chase_mpidla_mgpu.hpp: constructor, destructor"]}
{"id": "C68", "title": "Reported operation counts", "statement": "get_filter_flops(N) and get_flops(N) return the number of operations of the calls made by the solve, rounded down to 10^9, as long as that number is below 2^53; the filter's count is always within one of the true count modulo 2^64, and below 2^53 it never exceeds the total. For large problems this fails (finding): the 64-bit counters hold single operations, so the filter's count of a complex problem of size 360000 wraps after 17.8 million products, the total wraps earlier and is printed as a fraction of the filter's share, and a block of more than 2^64 operations makes the conversion from double undefined.", "quantifier": "all matrix sizes, scalar factors, block-size histories and product counts; for a decorated solve all kernels, clocks and configurations", "why_tests_cant": "the wrap-around needs runs of hours on large machines; floating-point truncation has to be exact for every count", "anchors": ["algorithm/performance.hpp: ChasePerfData::get_flops, get_filter_flops, print"]}
{"id": "C69", "title": "Results on a GPU do not depend on timing", "statement": "On the single-GPU backend kernels, cuBLAS and cuSOLVER calls are only enqueued; whatever the device's timing, a solve returns the values, residuals and vectors that running every call immediately would give, also when work of earlier calls is still waiting when it starts. One product of the multi-GPU backend is right under every timing when staged through the host or reduced with NCCL. With CUDA-aware MPI it is not (finding): the reduction is given the device pointer without a synchronisation, so it can run before the product.", "quantifier": "all schedules of the device allowed by the stream rules, all numeric libraries, configurations, solver objects and states of device memory", "why_tests_cant": "a race shows only under some timings; a test observes one schedule", "anchors": ["ChASE-MPI/impl/chase_mpidla_cuda_seq.hpp: ChaseMpiDLACudaSeq (all kernels)", "ChASE-MPI/impl/chase_mpidla_mgpu.hpp: apply", "ChASE-MPI/impl/chase_mpidla.hpp: apply", "ChASE-MPI/mpi_wrapper.hpp: AllReduce"]}
{"id": "C70", "title": "The distributed solver returns eigenpairs of the matrix", "statement": "Start p x q processes, each holding its rows and columns of a Hermitian matrix H and its rows of the start vectors, block-cyclic or in blocks, and let all call solve. With exact arithmetic and LAPACK routines that do what their documentation says, every interleaving of the processes completes; every process returns the same Ritz values and residuals; the rows left in the processes' arrays C are the rows of orthonormal vectors; each of the first nev values belongs to one of the first nev vectors x, a different one for each: it is the Rayleigh quotient of x, the residual stored at x's position is the norm of H x - value x, and some eigenvalue of H lies within that distance; and sums of the returned values are bounded by sums of eigenvalues of H.", "quantifier": "all real closed fields, fields of scalars inside their complex numbers, LAPACK implementations meeting the specification, matrices, sizes, grids, block sizes, start vectors, configurations, and interleavings of the processes", "why_tests_cant": "a test runs one grid and one matrix in floating point; it cannot separate an error of the distribution from rounding and cannot visit all interleavings", "anchors": ["algorithm/algorithm.inc: Algorithm::solve", "ChASE-MPI/chase_mpi.hpp: ChaseMpi", "ChASE-MPI/impl/chase_mpidla.hpp: ChaseMpiDLA (all kernels)", "ChASE-MPI/impl/chase_mpidla_blaslapack.hpp: ChaseMpiDLABlaslapack (all kernels)", "ChASE-MPI/chase_mpi_properties.hpp: ChaseMpiProperties"]}
{"id": "C71", "title": "Arguments passed from Fortran and C reach the solver, and results come back", "statement": "A call of any chase or pchase routine from Fortran (interface module) or C builds the solver with exactly the sizes, leading dimension, grid, sources, communicator and array addresses the caller named, sets the init flag to 1 (0 on finalize) and writes nothing else; a solve receives the caller's degree, tolerance, mode, optimisation and QR choices. Values the library stores in the caller's array are the values the caller reads through its declared type. The last clause fails for the distributed single precision complex routines, whose Fortran interface declares the eigenvalue array double precision: two eigenvalues are read as one number.", "quantifier": "all contents of memory, all addresses of the arguments, all four scalar types, all routines, all lengths of the eigenvalue array", "why_tests_cant": "a test passes one set of addresses and values; types are not checked between the two languages, so a wrong declaration compiles and only misreads particular results", "anchors": ["interface/chase_f.f90", "interface/chase_c.cpp", "ChASE-MPI/chase_mpi_properties.hpp: constructors"]}
{"id": "C72", "title": "Characters given by a Fortran caller mean what the caller wrote", "statement": "The grid layout is the one asked for by the character grid_major, and the matrix file is the one named by filename. True for 'R' always, for 'C' exactly when the byte after the character is zero: the library compares a single character as a zero terminated string. Otherwise the grid is numbered row by row, the processes can disagree so that two of them take the same place, or memory after the variable is read out of bounds. A file name is the caller's exactly when a zero byte follows it.", "quantifier": "all contents of memory (including inaccessible bytes), grid dimensions, ranks, file names", "why_tests_cant": "the byte after a variable is chosen by the compiler; in a test it is usually zero", "anchors": ["interface/chase_f.f90: pdchase_init and siblings", "interface/chase_c.cpp: pdchase_init_", "ChASE-MPI/chase_mpi_properties.hpp: ChaseMpiProperties (strcmp(grid_major, \"C\"))", "interface/chase_c.cpp: pdchase_wrtham_, pdchase_readham_"]}
{"id": "C73", "title": "The array of eigenvalues handed to the solver needs nev + nex entries", "statement": "Every solve that is not rejected by the symmetry test accesses nev + nex entries of the eigenvalue and residual arrays: on every backend, a solve with shorter arrays does not return normally. In particular an array of length nev, as the interface documents, is overrun as soon as nex > 0.", "quantifier": "all backends, sorting routines, configurations, arrays, states", "why_tests_cant": "an overrun of a caller's array goes unnoticed in most runs; showing that every run overruns needs all paths", "anchors": ["interface/chase_f.f90", "algorithm/algorithm.inc: Algorithm::solve, Algorithm::lanczos"]}
{"id": "C74", "title": "Each iteration brings the block nearer to the lowest eigenvectors at the Chebyshev rate", "statement": "In exact arithmetic, while no pair is locked, a solve that filters with degree d on [lo, up] and has the m lowest eigenvalues below lo and the others in [lo, up] converges: after t iterations the returned block contains for each of the m lowest eigenvectors a vector whose squared distance from it is at most |T_d(x)|^(-2t) times that of the best matching combination of the starting block, where T_d is the Chebyshev polynomial and x the eigenvalue mapped to the interval's coordinates; the factor |T_d(x)|^(-1) lies strictly between 0 and 1. The j-th returned value, counted in ascending order, is at least the j-th lowest eigenvalue and exceeds it by at most (up - eigenvalue) times the sum of these bounds over the first j vectors. The starting block must have components along all m eigenvectors that are linearly independent; with degree optimisation the degrees change after the first iteration, so the statement is about the first iteration then.", "quantifier": "all dimensions, all Hermitian matrices over any field between a real closed field and its complex numbers, all block sizes, configurations, numbers of iterations, starting blocks and bounds that separate the spectrum; Mpi backend, and Seq unless the shifted Cholesky QR meets a second factorisation that fails", "why_tests_cant": "a rate of convergence concerns every matrix and every number of iterations; tests observe that some matrices converge", "anchors": ["algorithm/algorithm.inc: solve, filter", "ChASE-MPI/chase_mpi.hpp", "ChASE-MPI/impl/chase_mpidla.hpp", "ChASE-MPI/impl/chase_mpidla_blaslapack.hpp", "ChASE-MPI/impl/chase_mpidla_blaslapack_seq.hpp"]}
{"id": "C75", "title": "The templates around BLAS, LAPACK and ScaLAPACK run the documented routine on the caller's arguments", "statement": "A call of any of the 76 templates t_scal ... t_ptranc (float, double and their complex types) runs the library routine of that name and type exactly once, on exactly the caller's sizes, strides, letters, transpositions, matrices, scalars and descriptors, in the positions the library documents, and returns its value or status; with assertions enabled the program may stop instead, but only because that status is not zero. It fails exactly for: real t_gesvd (undefined with assertions or for an empty matrix), t_lange<double> (result of the wrong type) and t_lange with the infinity norm (no workspace), t_stemr<double> where Fortran names are in upper case (workspace query to the single precision routine), t_pgqr<float> with fewer reflectors than columns, and sizes of 2^31 or more, which lose their upper bits.", "quantifier": "all templates, number types, argument values below 2^31, descriptors, name manglings, with and without assertions, all libraries whose workspace queries report a sufficient length that fits into an int", "why_tests_cant": "76 near-identical functions with up to 21 positional pointer arguments; a test that checks one result does not see a wrong leading dimension that happens to be equal, a swapped argument on square matrices, an ignored status, or another platform's name mangling", "anchors": ["ChASE-MPI/blas_templates.inc", "ChASE-MPI/blas_templates.hpp", "ChASE-MPI/blas_fortran.hpp", "ChASE-MPI/fortran_mangle.h"]}
{"id": "C76", "title": "Workspaces of the templates are long enough and are released", "statement": "A workspace length travels from the library through the first entry of a floating-point workspace. In double precision it arrives exactly, so every routine gets the workspace it asks for. In single precision that holds for lengths below 2^24, or if the library rounds lengths up; with a library that rounds to nearest, t_heevd<float> with 2895 <= n <= 5791 passes one number too few, the routine refuses, nothing is computed and, without assertions, 2^64 - 8 is returned (which the callers ignore). When a template returns, all its memory has been released except the real workspace of t_gesvd (all types but double complex) and the converted descriptors of the ScaLAPACK templates, 9 integers each.", "quantifier": "all templates, arguments below 2^31 and libraries with the stated rounding and minimal lengths; all n in the stated range", "why_tests_cant": "the length is rounded only from n = 2895 on in single precision, and only with some versions of LAPACK; leaks do not change results", "anchors": ["ChASE-MPI/blas_templates.inc", "ChASE-MPI/blas_templates.hpp", "ChASE-MPI/blas_fortran.hpp", "ChASE-MPI/impl/chase_mpidla_blaslapack_seq.hpp: heevd", "ChASE-MPI/impl/chase_mpidla_blaslapack.hpp: heevd"]}
{"id": "C77", "title": "Squared norms and complex dot products add every term once, in order", "statement": "t_norm_p2(n, x) returns the sum of |x_0|^2 ... |x_{n-1}|^2 and the complex t_dot the sum of conj(x_{i incx}) y_{i incy}, added from the first to the last term, reading nothing else, for n < 2^31 and strides with n * inc < 2^64; from n = 2^31 on the signed loop counter overflows.", "quantifier": "all n below 2^64, all arrays, strides and (possibly inexact) arithmetics", "why_tests_cant": "the claim is about all lengths, including those no test allocates", "anchors": ["ChASE-MPI/blas_templates.inc: t_sqrt_norm, t_norm_p2, t_dot", "ChASE-MPI/impl/chase_mpidla_blaslapack.hpp: Resd"]}
{"id": "C78", "title": "Host and device copies of a matrix agree after a transfer and nothing else is touched", "statement": "On a GPU build every matrix has a host copy (leading dimension chosen by the caller) and a device copy (leading dimension = number of rows). Uploading or downloading all of it, or some leading rows of a range of columns, makes exactly those entries of the target equal to the source's and changes nothing else; going one way and back leaves the first copy as it was; no sequence of transfers and device computations changes the padding rows of the caller's buffer or anything behind its last column. The work blocks are allocated on the host only without GPU, in both places on a plain GPU build, on the device only in the CUDA-aware build. In every supported mode each buffer the solver communicates through exists where the solver looks for it, and the host copy of the vectors is refreshed exactly when the solver works on the device copy. Not so for the buffer of the Ritz values, whose leading dimension is max_block though it has one row (a transfer would leave the array), for matrices of 2^31 rows or more (nothing is transferred and the status is dropped), and for GPU modes on a build without CUDA (uninitialised pointers).", "quantifier": "all matrix shapes, leading dimensions, contents, row counts, column ranges, sequences of transfers and device stores, modes 0-2, builds with and without CUDA", "why_tests_cant": "an off-by-one leading dimension is invisible when ldh equals the number of rows, as in every test; padding of the caller's array is never compared; sizes beyond 2^31 and modes without CUDA are not run", "anchors": ["ChASE-MPI/chase_mpi_matrices.hpp: Matrix, H2D, D2H, sync2Ptr, syncFromPtr, ptr, ChaseMpiMatrices, C_comm", "ChASE-MPI/impl/chase_mpidla.hpp: hhQR, estimated_cond_evaluator (guarded sync2Ptr)"]}
{"id": "C79", "title": "Sums and broadcasts reach every element on every process, with MPI and with NCCL", "statement": "Each reduction and broadcast of the distributed solver, on whichever backend the build selects, leaves on every process the sum over all processes (the root's data) in all elements of the block and nothing else changed, for real and complex numbers; NCCL and MPI are asked for the same sums. This holds as long as the number of elements (for complex numbers over NCCL twice that) is below 2^31. Beyond it fails: between 2^31 and 2^32 elements MPI aborts, complex numbers over NCCL overflow from 2^30 on, and from 2^32 on only the remainder modulo 2^32 is reduced, silently - nothing at all for exactly 2^32. A product of complex numbers would differ between MPI and NCCL; a communicator that was never registered raises an exception.", "quantifier": "all numbers of processes, buffers, block sizes, number types, builds with and without NCCL, CUDA-aware or not, any commutative associative addition", "why_tests_cant": "tests run with blocks of a few thousand elements on few processes; NCCL builds need GPUs; truncated counts give plausible numbers without any error", "anchors": ["ChASE-MPI/mpi_wrapper.hpp: AllReduce, Bcast, Comm", "ChASE-MPI/chase_mpi_properties.hpp: getMPI_Type", "ChASE-MPI/impl/chase_mpidla.hpp: allreduce_backend, bcast_backend, apply, asynCxHGatherC, B2C"]}
{"id": "C80", "title": "Process grids, output and devices on a communicator of the caller's choice", "statement": "On MPI_COMM_WORLD the BLACS process column and grid consist of exactly the processes of the solver's column communicator and grid, exactly one process prints, and with enough devices the processes of a node use different devices. In general the BLACS column is right iff the processes of the column have the same rank in the communicator as in the world; on a communicator without the first processes of the world no process is part of the grid it creates, and nobody prints. With fewer devices than processes on a node the solver announces that it terminates but carries on with everyone on device 0, and two solvers on disjoint communicators of a node start with the same device.", "quantifier": "all grid shapes and orderings, communicators, placements of processes on nodes, numbers of devices", "why_tests_cant": "all tests run on MPI_COMM_WORLD on one node", "anchors": ["ChASE-MPI/chase_mpi_properties.hpp: ChaseMpiProperties constructors (userMap, blacs_gridmap_, blacs_gridinit_, cudaSetDevice)", "ChASE-MPI/chase_mpi.hpp: Output, rank_"]}
{"id": "C81", "title": "The solver stops as soon as the search space contains the wanted eigenvectors well enough", "statement": "In exact arithmetic, for a Hermitian matrix whose nev lowest eigenvalues lie below the filter interval [lower bound of the first iteration, upper bound], the residuals of the Ritz pairs after t iterations are bounded a priori: their squares are at most 2 D^2 E(t) (1 + m D / g), where m >= nev is the number of eigenvalues below the interval, D the width of the spectrum seen by the filter, g the gap between the m-th eigenvalue and the interval, and E(t) the sum over those eigenvalues of rate^(2t) times the squared distance of the start block. Once this is below the squared tolerance the solve ends, with every wanted pair locked, within t iterations: unconditionally for t = 1 and for nev = 1, and otherwise if no earlier iteration locks only some of the wanted pairs. For nev = 1 such a t exists for every positive tolerance, so a large enough iteration limit guarantees success. A restart in approximate mode from the exact values, in any order, and vectors that span the exact wanted eigenvectors ends after exactly one iteration with all residuals returned within the tolerance.", "quantifier": "all Hermitian matrices with a simple gap, sizes, nev, nex, degrees, tolerances, iteration limits, start vectors that are not orthogonal to the wanted ones, exact BLAS/LAPACK oracles, index orders of the sorts; backends Mpi and Seq", "why_tests_cant": "tests see that a few matrices converge within 25 iterations; they cannot show that a run that exhausts its iterations is not caused by the locking or the bookkeeping", "anchors": ["algorithm/algorithm.inc: solve, locking, calc_degrees", "ChASE-MPI/impl/chase_mpidla_mpi.hpp: RR, Resd", "ChASE-MPI/impl/chase_mpidla_seq.hpp: RR, Resd"]}
{"id": "C82", "title": "QR factorisation through ScaLAPACK uses exactly the solver's vectors", "statement": "In a build with ScaLAPACK the Householder QR factorisation of the search space is done in place on the distributed vectors. For block-cyclic distributions in which every process holds rows, and for block distributions in which no block is longer than the others, the array descriptors handed to ScaLAPACK are accepted and name for every entry the process and the position at which the solver keeps it; so the processes end with their rows of the orthonormal factor, nothing else changes, any sequence of backend calls completes in every interleaving of the processes, the whole solver returns what it returns without ScaLAPACK, and with exact arithmetic these are orthonormal vectors with the eigenvalues and residuals that belong to them. Findings: the error code of the descriptor is ignored; with a last block longer than the others (accepted by the block constructor) the descriptors are wrong and the factorisation leaves the array of process 0; a process without rows gets an invalid descriptor.", "quantifier": "for all matrix sizes, grids, block sizes, sources, numbers of vectors, matrices, start vectors, solver parameters, library results and interleavings of the processes; the refutations for all sizes with a longer last block", "why_tests_cant": "a test runs a few sizes, usually with equal blocks; a wrong descriptor may read neighbouring memory without crashing and the factorisation of the wrong vectors still has orthonormal columns", "anchors": ["ChASE-MPI/chase_mpi_properties.hpp: ChaseMpiProperties (three constructors), desc1D_Nxnevx_", "ChASE-MPI/blas_templates.inc: t_descinit, t_pgeqrf, t_pgqr", "ChASE-MPI/impl/chase_mpidla.hpp: hhQR (HAS_SCALAPACK)"]}
{"id": "C83", "title": "The in-place and GPU backends return orthonormal eigenvector approximations near the spectrum", "statement": "In exact arithmetic, after a solve on the in-place, the single-GPU or the multi-GPU backend that was not rejected, the nev+nex vectors are orthonormal, the nev values are the Rayleigh quotients of their vectors, each residual is ||Hx - vx|| and an eigenvalue of the caller's matrix lies within it, no eigenvalue is returned twice (interval counts with multiplicity), and any k values sum up to something between the sums of the k lowest and the k highest eigenvalues. For the single-GPU backend the vectors are those in the caller's host buffer, whatever host and device held before; on the multi-GPU backend values correspond to vectors and residuals up to one permutation, as on Mpi. Runs in which the shifted Cholesky QR meets a failing second factorisation are excluded.", "quantifier": "all real symmetric and complex Hermitian matrices, start vectors, old contents of host and device buffers, configurations, numbers of iterations, choices of QR variants; all oracles that factorise and diagonalise exactly", "why_tests_cant": "quantifies over matrices and runs; the two buffers exchange roles every iteration and locked columns must stay orthogonal to columns orthonormalised in the other buffer", "anchors": ["ChASE-MPI/impl/chase_mpidla_blaslapack_seq_inplace.hpp: RR, hhQR, cholQR1, cholQR2, shiftedcholQR2, LockVectorCopyAndOrthoConcatswap", "ChASE-MPI/impl/chase_mpidla_cuda_seq.hpp: RR 447-500, Resd 502-519, hhQR, cholQR1, cholQR2, shiftedcholQR2, End 405-409", "ChASE-MPI/impl/chase_mpidla_mgpu.hpp: RR, Resd, syherk, potrf, trsm", "algorithm/algorithm.inc: solve 324-572"]}
{"id": "C84", "title": "One solver object serves many problems: earlier runs leave no trace in later answers", "statement": "Solving a problem with an object that already solved others gives the values, residuals and vectors that a new object gives. Seq and Mpi: two objects of the same size that hold the same matrix (and the same vectors, if approximate vectors are requested) return the same, whatever their workspaces, product direction and lock counter contain; so a whole session of problems, with new matrices, options and vectors written between the runs, equals solving each problem with its own object. In place: the same for two objects whose first block is equal, and sessions of problems with random start. One and several GPUs: the same results when the matrix and, in approximate mode, the device vectors are equal. A session with approximate vectors on the in-place backend does not have the property: a run exchanges the two blocks, the caller's buffer may then be the scratch block, and vectors written to it are ignored.", "quantifier": "all numeric types, BLAS/LAPACK oracles whose product ignores its target when beta is 0, random numbers, legal configurations, sort functions, matrices, start vectors, contents of all workspaces, lists of problems of one size", "why_tests_cant": "the tests construct a new object for every problem; leftovers depend on the number of iterations, on which pairs were locked and on the path the QR took in earlier runs", "anchors": ["algorithm/algorithm.inc Algorithm::solve", "ChASE-MPI/chase_mpi.hpp ChaseMpi::Start, End, Reset, initVecs", "ChASE-MPI/impl/chase_mpidla_blaslapack_seq.hpp", "ChASE-MPI/impl/chase_mpidla_blaslapack_seq_inplace.hpp std::swap(V1_, V2_) in apply and RR", "ChASE-MPI/impl/chase_mpidla_cuda_seq.hpp", "ChASE-MPI/impl/chase_mpidla_mgpu.hpp"]}
{"id": "C85", "title": "The in-place and GPU backends return what Seq returns", "statement": "For a matrix that equals its adjoint, given the same approximate vectors (on the GPU: the same vectors on the device), the in-place backend and the single-GPU backend return exactly the values, residuals and vectors of Seq, run for run: undefined behaviour in one iff in the other, early return in one iff in the other. With random start this fails: the columns of the start block that the spectral estimate does not replace are taken from the second block, which holds the orthonormalised vectors in Seq and the raw random vectors in place.", "quantifier": "all numeric types, BLAS/LAPACK oracles that do not distinguish H from H^H on the given matrix (and its shifts), have beta = 0 ignore the target and report dependent columns at the first Cholesky factorisation, legal configurations in approximate mode, sort functions, start vectors, workspaces", "why_tests_cant": "tests compare eigenvalues to a tolerance on a few matrices; that the two implementations take the same decisions (degrees, locking, QR variant, fallback) at every iteration needs a simulation", "anchors": ["ChASE-MPI/impl/chase_mpidla_blaslapack_seq.hpp", "ChASE-MPI/impl/chase_mpidla_blaslapack_seq_inplace.hpp initVecs, apply, RR, cholQR1, LanczosDos", "ChASE-MPI/impl/chase_mpidla_cuda_seq.hpp", "algorithm/algorithm.inc Algorithm::solve"]}
{"id": "C86", "title": "The filter degree of a pair is what its residual needs", "statement": "In exact arithmetic, for a wanted Ritz value left of the filtered interval with residual above the tolerance, the degree given to the pair enlarges its component, relative to everything inside the interval, enough to bring the residual to the tolerance (up to a factor 2 that DegExtra absorbs), unless MaxDeg cuts the degree off; and the degree is at most DegExtra + 1 above any degree that does so. The computation is defined when all wanted Ritz values lie left of the interval and all their residuals are positive. It fails in four situations a user can meet: a pair whose residual is already below the tolerance (waiting behind an unconverged one) gets a LARGER degree the better it is; a residual of exactly 0 makes the degree undefined; without extra vectors (nex = 0) the degree of the last pair is undefined as soon as one pair is locked and the residuals are at most 1/2; and when the lower end exceeds the upper bound, the recovery leaves an interval of width 0 and the next degree is undefined.", "quantifier": "all real bounds lb < ub, tolerances, Ritz values, residuals, numbers of unconverged, extra and locked pairs, DegExtra, MaxDeg, kernels; for the failures all runs and states as described", "why_tests_cant": "tests run a few matrices and observe convergence; the bound on the amplification needs the closed form of the Chebyshev polynomials for every degree, and the failures occur only in particular states of the iteration", "anchors": ["algorithm/algorithm.inc Algorithm::calc_degrees", "algorithm/algorithm.inc Algorithm::solve (bounds update, recovery from lowerb > upperb)", "algorithm/configuration.hpp SetDegExtra, SetMaxDeg"]}
{"id": "C87", "title": "The sequential backend stays inside its arrays and honours the leading dimension", "statement": "On the arrays the caller passes - the matrix with leading dimension ldh >= N, the vectors N by nev+nex contiguous - the sequential backend computes exactly what the same algorithm computes on whole columns: same Ritz values, residuals and final vectors, column after column in the caller's array. No access falls outside the caller's arrays or the backend's own buffers when nex <= nev. Elements of the matrix array that do not belong to the N x N matrix are neither read nor written: two embeddings of the same matrix, with different leading dimensions and different elements in between, give the same answers. With nex > nev the internal copies are overrun.", "quantifier": "all N >= 1, ldh >= N, array lengths and contents, nev, nex, configurations, library results, QR variants, and all runs", "why_tests_cant": "tests use ldh = N and do not see reads outside the arrays or stores into the padding; offsets multiply locked counts, block sizes and leading dimensions that vary from iteration to iteration", "anchors": ["ChASE-MPI/impl/chase_mpidla_blaslapack_seq.hpp ChaseMpiDLABlaslapackSeq", "ChASE-MPI/chase_mpi.hpp ChaseMpi"]}
{"id": "C88", "title": "The in-place sequential backend stays inside its arrays; which array holds the vectors", "statement": "On the arrays the caller passes - the matrix with leading dimension ldh >= N, the vectors N by nev+nex contiguous - the in-place sequential backend, which exchanges the pointers to the caller's vector array and to its own buffer, computes exactly what the same algorithm computes on whole columns. No access falls outside the arrays, for every nev and nex. Elements of the matrix array outside the N x N matrix are neither read nor written, and have no influence. When solve returns, the caller's vector array is the array the solver works on exactly if the number of iterations is even; after an odd number it holds the other array (the claim that it holds the eigenvectors is refuted).", "quantifier": "all N >= 1, ldh >= N, array lengths and contents, nev, nex, configurations, library results, QR variants, and all runs", "why_tests_cant": "tests use ldh = N and read the vectors through the solver's own pointer; offsets, the corner of the workspace used by Rayleigh-Ritz and the pointer exchanges depend on the number of locked vectors and on the parity of the history", "anchors": ["ChASE-MPI/impl/chase_mpidla_blaslapack_seq_inplace.hpp ChaseMpiDLABlaslapackSeqInplace", "ChASE-MPI/chase_mpi.hpp ChaseMpi"]}
{"id": "C89", "title": "What the sequential backends leave in the caller's arrays", "statement": "The caller passes an array with a Hermitian matrix, with leading dimension ldh >= N and any padding, and an array with start vectors. In exact arithmetic, with BLAS and LAPACK routines that do what their documentation says, a solve that returns leaves nev+nex orthonormal vectors in the solver's vector array; the values and residuals handed back belong to these vectors, each residual is the norm of H x - lambda x, and together they bound the eigenvalues of the matrix in the array. The matrix array ends exactly as it was, padding included. The in-place backend does the same for the array it works in at the end, which is the caller's after an even number of iterations. With a fixed degree, Householder QR and no symmetry test every call returns with this answer.", "quantifier": "all real closed fields and complex numbers over them, N >= 1, ldh >= N, arrays, nev, nex (nex <= nev for the backend with two buffers), start vectors, configurations, sort functions and exact libraries; all runs that return", "why_tests_cant": "tests compare a few matrices with ldh = N up to rounding; the answer has to be right for every matrix, leading dimension, locking history and degree sequence", "anchors": ["ChASE-MPI/impl/chase_mpidla_blaslapack_seq.hpp ChaseMpiDLABlaslapackSeq", "ChASE-MPI/impl/chase_mpidla_blaslapack_seq_inplace.hpp ChaseMpiDLABlaslapackSeqInplace", "ChASE-MPI/chase_mpi.hpp ChaseMpi", "algorithm/algorithm.inc Algorithm<T>::solve"]}
{"id": "C90", "title": "Single-GPU backend on the arrays of host and device", "statement": "The GPU backend works on the caller's matrix array (leading dimension ldh), the caller's vector array and arrays on the device with other leading dimensions. Every solve on these arrays gives the values, residuals and vectors that the same solve on columns gives, from any object, new or used. No access leaves an array on host or device (except through degrees out of range, as elsewhere). The caller's matrix array is never written; after a run the caller's vector array equals the one on the device. Padding, leading dimension, the caller's old vectors and what earlier solves left on the device in the matrix, the work matrix and the value arrays have no influence on the answer. Vectors passed by the caller for approximate mode have none either (refuted expectation).", "quantifier": "all element types, library results, N >= 1, ldh >= N, nev, nex, array contents, configurations and runs", "why_tests_cant": "an access one row or column off hits padding or another array and goes unseen for ldh = N or small sizes; leftovers of earlier solves matter only for particular histories", "anchors": ["ChASE-MPI/impl/chase_mpidla_cuda_seq.hpp ChaseMpiDLACudaSeq", "ChASE-MPI/chase_mpi_matrices.hpp ChaseMpiMatrices", "ChASE-MPI/chase_mpi.hpp ChaseMpi"]}
{"id": "C91", "title": "What the single-GPU backend leaves in the caller's arrays", "statement": "The caller passes an array with a Hermitian matrix, with leading dimension ldh >= N and any padding. In exact arithmetic, with cuBLAS and cuSOLVER routines that do what their documentation says, a solve on the GPU that returns leaves nev+nex orthonormal vectors in the caller's vector array; the values and residuals handed back belong to these vectors, each residual is the norm of H x - lambda x, and together they bound the eigenvalues of the matrix in the caller's array. This holds for new and for used objects. With a fixed degree, Householder QR and no symmetry test every call returns with this answer.", "quantifier": "all real closed fields and complex numbers over them, N >= 1, ldh >= N, host and device arrays, nev, nex, configurations, sort functions and exact libraries; all runs that return", "why_tests_cant": "tests compare a few matrices with ldh = N up to rounding on new objects; the answer has to be right for every matrix, leading dimension, device state and locking history", "anchors": ["ChASE-MPI/impl/chase_mpidla_cuda_seq.hpp ChaseMpiDLACudaSeq", "ChASE-MPI/chase_mpi.hpp ChaseMpi", "algorithm/algorithm.inc Algorithm<T>::solve"]}
{"id": "C92", "title": "One solver object for many problems, on the caller's arrays", "statement": "A caller constructs one solver object on an array for the matrix and an array for the vectors, and then solves a sequence of problems, each time writing a new matrix (and new start vectors in approximate mode) into these arrays. On an object that has been used in any way, every solve runs as it would on the columns of its arrays, stays inside the arrays, and leaves an object of the same shape. The answer depends on the N x N matrix and, in approximate mode, on the array of start vectors; not on workspaces, flags, padding, leading dimension or what is left on the device. So every problem of a session gets the answer a new object gives: sequential backend for all problems, in-place and GPU backend for problems without start vectors. For the in-place backend with start vectors this is false (refuted): after an odd number of iterations the object reads another array than the one the caller fills.", "quantifier": "all element types, library results (a product whose factor for the old contents is zero must not depend on them), N >= 1, ldh >= N, nev, nex, array contents, configurations, lists of problems of any length", "why_tests_cant": "tests construct a new object per solve; a read of a workspace before it is written shows only for particular earlier problems", "anchors": ["ChASE-MPI/impl/chase_mpidla_blaslapack_seq.hpp ChaseMpiDLABlaslapackSeq", "ChASE-MPI/impl/chase_mpidla_blaslapack_seq_inplace.hpp ChaseMpiDLABlaslapackSeqInplace", "ChASE-MPI/impl/chase_mpidla_cuda_seq.hpp ChaseMpiDLACudaSeq", "ChASE-MPI/chase_mpi.hpp ChaseMpi", "algorithm/algorithm.inc Algorithm<T>::solve"]}
{"id": "C93", "title": "Eigenpairs for every problem solved with one object", "statement": "The object has been used before, in any way. In exact arithmetic with library routines that do what their documentation says, a solve that returns leaves nev+nex orthonormal vectors in the array the object works in, the values and residuals belong to them and to the matrix now in the caller's array, and that array is unchanged. With a fixed degree, Householder QR and no symmetry test, a session of any length on one object of the sequential (nex <= nev), in-place or GPU backend answers each of its problems, and each answer is for that problem's own matrix.", "quantifier": "all real closed fields and complex numbers over them, N >= 1, ldh >= N, arrays, nev, nex, configurations, sort functions, exact libraries and lists of problems; all runs that return", "why_tests_cant": "an answer that mixes data of two problems needs a particular history; the claim is about every sequence of problems and every matrix", "anchors": ["ChASE-MPI/impl/chase_mpidla_blaslapack_seq.hpp ChaseMpiDLABlaslapackSeq", "ChASE-MPI/impl/chase_mpidla_blaslapack_seq_inplace.hpp ChaseMpiDLABlaslapackSeqInplace", "ChASE-MPI/impl/chase_mpidla_cuda_seq.hpp ChaseMpiDLACudaSeq", "ChASE-MPI/chase_mpi.hpp ChaseMpi", "algorithm/algorithm.inc Algorithm<T>::solve"]}
{"id": "C94", "title": "Parameters a solve cannot do without", "statement": "A solve needs a matrix with at least two rows, at least one column of vectors, at least one Lanczos step and, when it starts from random vectors, between one and nev+nex Lanczos vectors. With any other parameters every solve, on every backend, with every matrix and on new and used objects, accesses memory outside its arrays unless the symmetry test rejects the matrix first. A new configuration asks for four Lanczos vectors whatever nev and nex are, so the default configuration cannot be used with nev+nex < 4 (refuted expectation); with nev+nex >= 4 and N >= 2 the defaults meet these conditions.", "quantifier": "all backends, element types, library results, matrices, objects, sorting routines and configurations", "why_tests_cant": "reads past the end of a heap array usually go unnoticed; the tests use nev+nex far above four", "anchors": ["algorithm/algorithm.inc Algorithm<T>::solve", "algorithm/algorithm.inc Algorithm<T>::lanczos", "algorithm/configuration.hpp ChaseConfig", "ChASE-MPI/impl/chase_mpidla_blaslapack_seq.hpp mLanczos", "ChASE-MPI/impl/chase_mpidla.hpp mLanczos"]}
{"id": "C95", "title": "A distributed solver object can be used for several problems", "statement": "With and without ScaLAPACK: the processes of an MPI grid keep one solver object and solve one problem after the other: before each, every process writes its block of the next matrix and, with approximate vectors, its rows of the vectors into the arrays the object was built with. Whatever the arrays hold at the start and however the processes interleave, the whole sequence completes without deadlock or mismatched collectives; for each problem all processes get the values and residuals, and each its rows of the vectors, that a new object would have given. With exact arithmetic and LAPACK routines that do what their documentation says, these are orthonormal vectors and eigenvalue estimates of the matrix of that problem within the returned residuals.", "quantifier": "all element fields, Hermitian matrices, start vectors, numbers and orders of problems, block-cyclic and block layouts, grids, leading dimensions, leftovers in the arrays, and interleavings", "why_tests_cant": "a test solves a short fixed sequence on one grid; a leftover that influences a later run, or a message of one problem received in the next, shows only for particular leftovers and schedules", "anchors": ["ChASE-MPI/chase_mpi.hpp ChaseMpi", "ChASE-MPI/impl/chase_mpidla.hpp ChaseMpiDLA", "ChASE-MPI/impl/chase_mpidla_blaslapack.hpp ChaseMpiDLABlaslapack", "ChASE-MPI/chase_mpi_matrices.hpp ChaseMpiMatrices", "algorithm/algorithm.inc Algorithm<T>::solve"]}
{"id": "C96", "title": "GPU library calls always get the work area they ask for", "statement": "The GPU backends (one GPU, or one of several with MPI) allocate one work area when the solver is built, of the largest size cuSOLVER asks for at full problem size, and use it for every later call. In any number of solves on one object every Cholesky factorisation, Householder QR and projected eigenproblem gets a work area at least as large as the library wants for exactly that call, all matrices and vectors passed lie inside their device arrays, the arguments are ones the library accepts, and the status word is never read before a call has written it. This holds for whatever numbers the library answers, except that an eigenproblem of fewer columns must not need more than one of all nev + nex columns; exactly then a run is defined. The sizes of the eigenproblems of a solve always lie between nex + 1 and nev + nex. Not so for a library that wants more for a smaller problem (finding: only the full size is queried).", "quantifier": "all libraries (answers to size queries, INFO values), block sizes, numbers of rows, QR decisions, configurations, kernels, lists of solves on one object", "why_tests_cant": "the sizes asked for depend on library version, device and type; a run meets a few block sizes, and a work area that is too small often goes unnoticed", "anchors": ["ChASE-MPI/impl/chase_mpidla_cuda_seq.hpp ChaseMpiDLACudaSeq, hhQR, cholQR1, cholQR2, shiftedcholQR2, RR", "ChASE-MPI/impl/chase_mpidla_mgpu.hpp ChaseMpiDLAMultiGPU, potrf, heevd", "ChASE-MPI/blas_cuda_wrapper.hpp cusolverDnTheevd_bufferSize, cusolverDnTpotrf_bufferSize", "ChASE-MPI/chase_mpi.hpp QR"]}
{"id": "C97", "title": "Library objects left behind by destroyed solvers", "statement": "A program creates, uses and destroys any number of solver objects of any backends one after the other. It never releases a communicator, datatype, grid, handle, stream or file twice, nor one it has not created, and never touches what existed before. Solves and matrix files read or written with MPI-IO leave nothing behind, however many there are. What each destroyed object leaves is exact: a distributed one 6 MPI communicators (4, and 2 NCCL communicators, with NCCL), one datatype per row and column of the grid and per piece of the redistribution that this process takes part in, 2 BLACS contexts with ScaLAPACK; a GPU one a cuBLAS handle, and with a single GPU a stream; the sequential CPU backends nothing. With room for a given number of communicators such a program completes if and only if all the communicators it ever creates fit at once; so not every number of distributed solver objects can be created one after the other (finding).", "quantifier": "all lists of objects (backends, grids, distributions, calls), builds with and without NCCL and ScaLAPACK, communicator limits, objects existing before", "why_tests_cant": "a test creates a few solvers per process and never gets near the limit (about 2000 communicators with MPICH); handles left behind do not show in results", "anchors": ["ChASE-MPI/chase_mpi_properties.hpp ChaseMpiProperties (three constructors), create2DGrid, readHamiltonianBlockDist, readHamiltonianBlockCyclicDist, writeHamiltonianBlockDist, writeHamiltonianBlockCyclicDist", "ChASE-MPI/impl/chase_mpidla.hpp ChaseMpiDLA, ~ChaseMpiDLA", "ChASE-MPI/impl/chase_mpidla_cuda_seq.hpp ChaseMpiDLACudaSeq, ~ChaseMpiDLACudaSeq", "ChASE-MPI/impl/chase_mpidla_mgpu.hpp ChaseMpiDLAMultiGPU, ~ChaseMpiDLAMultiGPU"]}
{"id": "C98", "title": "A whole multi-GPU solve does not depend on the timing of the GPUs", "statement": "On the multi-GPU backend built without CUDA_AWARE (MPI communicates from host memory), a solve on an object - fresh, or used and with operations of earlier calls still waiting on the devices - returns the same eigenvalues, residuals, convergence and eigenvectors, and leaves the same host matrix, whenever the devices execute the enqueued kernels, cuBLAS and cuSOLVER calls and copies: what running every operation at once gives, and therefore what the CPU backend computes from the same host data (same exact results of the BLAS and LAPACK calls and of the sums over the processes). The object left behind can be used for a further solve in the same way.", "quantifier": "all schedules of the devices, objects, pending operations, configurations, QR choices, matrices, local products whose sums over the processes are the whole products; builds with and without ScaLAPACK for the comparison with running in order", "why_tests_cant": "a test sees the one timing the machine produces; a missing wait shows only under load or on other GPUs", "anchors": ["ChASE-MPI/impl/chase_mpidla_mgpu.hpp ChaseMpiDLAMultiGPU (initVecs, initRndVecs, preApplication, apply, shiftMatrix, asynCxHGatherC, RR, Resd, syherk, potrf, trsm, applyVec)", "ChASE-MPI/impl/chase_mpidla.hpp ChaseMpiDLA (apply, asynCxHGatherC, RR, Resd, cholQR1, cholQR2, shiftedcholQR2, hhQR, mLanczos, LanczosDos, Lock, Swap)", "ChASE-MPI/chase_mpi_matrices.hpp Matrix::H2D, D2H"]}
{"id": "C99", "title": "One GPU solver object serves many problems whatever the timing of the GPUs", "statement": "A program keeps one object of the multi-GPU backend (built without CUDA_AWARE and ScaLAPACK), used before or not and with device operations possibly still waiting, and solves any number of problems with it, writing the next matrix (and, if the solver is to use them, start vectors) into host memory without waiting for the devices. Every problem gets the values, residuals and vectors that a new object of the CPU backend gives for that problem alone, whenever the devices execute what is enqueued. The same holds for an object of the single-GPU backend and problems with random start vectors, compared with a new object of that backend on a device that runs everything at once.", "quantifier": "all schedules of the devices, lists of problems of one size (matrices, start vectors, configurations), earlier histories and waiting operations; local products whose sums are the whole products", "why_tests_cant": "a test runs a few sequences with one timing; leftovers of an earlier problem on the device, or host memory overwritten under a waiting copy, need an unlucky timing to show", "anchors": ["ChASE-MPI/chase_mpi.hpp ChaseMpi (initVecs, Reset, Start, End)", "ChASE-MPI/impl/chase_mpidla_mgpu.hpp ChaseMpiDLAMultiGPU", "ChASE-MPI/impl/chase_mpidla.hpp ChaseMpiDLA", "algorithm/algorithm.inc solve", "ChASE-MPI/impl/chase_mpidla_cuda_seq.hpp ChaseMpiDLACudaSeq"]}
{"id": "C100", "title": "In exact arithmetic the GPU backends return eigenpairs whatever the timing of the GPUs", "statement": "A solve on the single-GPU or the multi-GPU backend (the latter built without CUDA_AWARE and ScaLAPACK), started on an object whose devices may still have operations of earlier calls waiting, with start vectors that are already there, either meets an undefined polynomial degree or returns; values, residuals and vectors are then the same for every timing of the devices. If the matrix was not rejected, the nev+nex vectors in the caller's host buffer are orthonormal, the values are Rayleigh quotients of the caller's matrix, each has an eigenvalue within its residual, no eigenvalue is returned twice, and the sums of values lie between those of the lowest and the highest eigenvalues. With a random start the same holds whenever the operations, executed in the order in which they are enqueued, bring the solve to its end. A list of problems solved one after the other on one multi-GPU object gets, problem by problem, such eigenpairs of the problem's own matrix.", "quantifier": "all schedules of the devices, real symmetric and complex Hermitian matrices, old contents and waiting operations, configurations, lists of problems, choices of QR variants; all oracles that factorise and diagonalise exactly; local products whose sums are the whole products", "why_tests_cant": "a test sees one timing and compares with a tolerance; a copy that is read before it has run spoils the eigenpairs only under some timings", "anchors": ["ChASE-MPI/impl/chase_mpidla_cuda_seq.hpp ChaseMpiDLACudaSeq", "ChASE-MPI/impl/chase_mpidla_mgpu.hpp ChaseMpiDLAMultiGPU", "algorithm/algorithm.inc solve"]}
