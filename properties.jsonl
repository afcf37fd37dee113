{"id": "C01", "title": "triangular_inplace zeroes exactly the other triangle", "statement": "For a square matrix, triangular_inplace/into_triangular(uplo) sets every entry strictly outside the requested triangle to zero, leaves every other entry (diagonal included) bit-for-bit unchanged, keeps the shape, and accesses no element out of bounds; for a non-square matrix it returns NotSquare{rows,cols} and changes nothing.", "quantifier": "every shape, every entry (any scalar type with a zero, NaN included), both UPLO values", "why_tests_cant": "Tests sample a few sizes (<=10) and values; the claim ranges over every shape and every entry value.", "anchors": ["src/triangular.rs: IntoTriangular::triangular_inplace, into_triangular", "src/lib.rs: check_square"]}
{"id": "C02", "title": "is_triangular decides triangularity", "statement": "is_triangular(uplo) is true exactly when the matrix is square and every entry strictly outside the requested triangle is zero; in particular it is always true of the output of into_triangular(uplo).", "quantifier": "every shape, every entry, both UPLO values", "why_tests_cant": "Tests sample a few sizes (<=10) and values; the claim ranges over every shape and every entry value.", "anchors": ["src/triangular.rs: Triangular::is_triangular"]}
{"id": "C03", "title": "Triangular solve returns the unique solution", "statement": "If T is square with non-zero diagonal, solve_triangular(b, uplo) returns x of b's shape with tri_uplo(T) x = b for every column, and x is the only such matrix; entries of T outside the requested triangle are never consulted.", "quantifier": "every n, every number of right-hand sides (0 included), every T with non-zero diagonal, both UPLO values (exact arithmetic)", "why_tests_cant": "The forward/backward substitution must be right for every n and every b; a wrong index or slice boundary may only show on larger n.", "anchors": ["src/triangular.rs: solve_triangular_system_common, SolveTriangular*"]}
{"id": "C04", "title": "Triangular solve error classification and memory safety", "statement": "solve_triangular* returns NotSquare{rows,cols} iff T is not square, otherwise WrongRows{expected: n, actual: b.rows} iff the row counts differ, otherwise Ok of b's shape; it never panics and never accesses out of bounds, whatever the entries are (zero diagonal, NaN).", "quantifier": "every pair of shapes, every entry, any scalar semantics", "why_tests_cant": "Tests sample a few sizes (<=10) and values; the claim ranges over every shape and every entry value.", "anchors": ["src/triangular.rs: solve_triangular_system_common", "src/index.rs: at, atm"]}
{"id": "C05", "title": "Cholesky factor reproduces the matrix", "statement": "When cholesky* returns Ok(L) for a symmetric A, L is lower triangular (strict upper part exactly zero), has strictly positive diagonal and L * L^T = A.", "quantifier": "every n including 0, every symmetric matrix (exact arithmetic)", "why_tests_cant": "Tests sample a few sizes (<=10) and values; the claim ranges over every shape and every entry value.", "anchors": ["src/cholesky.rs: cholesky_inplace_dirty, cholesky_inplace, cholesky, cholesky_into"]}
{"id": "C06", "title": "Cholesky succeeds exactly on positive definite matrices, uniquely", "statement": "For symmetric A, cholesky returns Ok iff x^T A x > 0 for every x != 0, and NotPositiveDefinite otherwise (NotSquare for non-square input); the factor is the only lower-triangular matrix with positive diagonal whose L L^T is A.", "quantifier": "every n, every symmetric matrix (exact arithmetic)", "why_tests_cant": "'iff positive definite' quantifies over all vectors x and all matrices.", "anchors": ["src/cholesky.rs: cholesky_inplace_dirty"]}
{"id": "C07", "title": "Cholesky ignores and preserves the strict upper triangle", "statement": "The dirty variants never write an entry strictly above the diagonal, on success or on failure, and the result (success flag and lower triangle) depends only on the lower triangle of the input.", "quantifier": "every shape, every entry, any scalar semantics (NaN included), including the state left behind by a failed in-place call", "why_tests_cant": "A frame property over all cells and all early exits.", "anchors": ["src/cholesky.rs: cholesky_inplace_dirty, cholesky_into_dirty, cholesky_dirty"]}
{"id": "C08", "title": "solvec solves symmetric positive definite systems", "statement": "For symmetric positive definite A and b with matching rows, solvec/solvec_into/solvec_inplace return x with A x = b (the unique solution); a non-square A gives NotSquare, a non-positive-definite A NotPositiveDefinite, mismatched b WrongRows.", "quantifier": "every n, every SPD A, every b (exact arithmetic)", "why_tests_cant": "Tests sample a few sizes (<=10) and values; the claim ranges over every shape and every entry value.", "anchors": ["src/cholesky.rs: solvec_inplace, solvec_into, solvec"]}
{"id": "C09", "title": "invc returns the inverse", "statement": "For symmetric positive definite A, invc/invc_inplace return X with A X = I and X A = I; errors as for solvec.", "quantifier": "every n, every SPD A (exact arithmetic)", "why_tests_cant": "Tests sample a few sizes (<=10) and values; the claim ranges over every shape and every entry value.", "anchors": ["src/cholesky.rs: invc_inplace, invc"]}
{"id": "C10", "title": "QR reproduces the matrix with orthonormal Q and upper-triangular R", "statement": "For rows >= cols, qr/qr_into return Ok and into_decomp yields Q (rows x cols) and R (cols x cols) with Q^T Q = I, Q R = A, R upper triangular with non-negative diagonal; for rows < cols the result is NotThin{rows,cols}.", "quantifier": "every shape, every matrix, rank-deficient and zero matrices included (exact arithmetic)", "why_tests_cant": "Tests sample a few sizes (<=10) and values; the claim ranges over every shape and every entry value.", "anchors": ["src/qr.rs: qr_into, generate_q, into_r, into_decomp", "src/householder.rs: reflection_axis_mut, clear_column, assemble_q"]}
{"id": "C11", "title": "is_invertible decides full column rank", "statement": "QRDecomp::is_invertible is true iff the columns of the decomposed matrix are linearly independent.", "quantifier": "every thin matrix (exact arithmetic)", "why_tests_cant": "Quantifies over all coefficient vectors of all matrices.", "anchors": ["src/qr.rs: is_invertible"]}
{"id": "C12", "title": "QR solve is exact / least-squares optimal", "statement": "QRDecomp::solve* on an invertible decomposition returns x (cols x k) whose residual satisfies A^T (A x - b) = 0, hence minimises ||A x - b||^2 over all x column by column, uniquely; when A is square, A x = b.", "quantifier": "every thin full-rank A, every b with matching rows, every competitor y (exact arithmetic)", "why_tests_cant": "Optimality quantifies over all competing x.", "anchors": ["src/qr.rs: qt_mul, solve_into, solve"]}
{"id": "C13", "title": "Transposed solve returns the minimum-norm solution", "statement": "solve_tr*(b) returns x (rows x k) with A^T x = b, and x has the smallest 2-norm of all solutions; least_squares on a wide matrix (rows < cols) therefore returns the minimum-norm solution of A x = b.", "quantifier": "every thin full-rank A (wide A for least_squares), every b, every competing solution (exact arithmetic)", "why_tests_cant": "Minimality quantifies over all competing solutions.", "anchors": ["src/qr.rs: solve_tr_into, solve_tr, least_squares_into"]}
{"id": "C14", "title": "inverse is a two-sided inverse", "statement": "inverse() returns X with A X = I and X A = I iff A is square and non-singular; NotSquare{rows,cols} for a non-square A, NonInvertible for a singular square A.", "quantifier": "every thin matrix (exact arithmetic)", "why_tests_cant": "Tests sample a few sizes (<=10) and values; the claim ranges over every shape and every entry value.", "anchors": ["src/qr.rs: inverse"]}
{"id": "C15", "title": "QR solver error classification", "statement": "solve_into returns WrongRows{expected: A.rows, actual: b.rows} iff the row counts differ, else NonInvertible iff is_invertible is false, else Ok; solve_tr_into likewise with A.cols; least_squares* dispatches on the shape and reports the same errors, never NotThin; none of them panics or reads out of bounds.", "quantifier": "every pair of shapes, every entry, any scalar semantics", "why_tests_cant": "Tests sample a few sizes (<=10) and values; the claim ranges over every shape and every entry value.", "anchors": ["src/qr.rs: solve_into, solve_tr_into, least_squares_into"]}
{"id": "C16", "title": "Reflection is the mirror image across the plane", "statement": "With a unit axis n and bias c, reflect_cols maps every column x to x - 2(n.x - c) n: applying it twice restores the matrix, points with n.x = c are fixed, distances between columns are preserved; reflect_rows does the same to rows; a reflection through the origin is orthogonal.", "quantifier": "every dimension, every unit axis, every bias, every matrix (exact arithmetic)", "why_tests_cant": "Tests sample a few sizes (<=10) and values; the claim ranges over every shape and every entry value.", "anchors": ["src/reflection.rs: reflect_cols, reflect_rows"]}
{"id": "C17", "title": "Tridiagonal decomposition is an orthogonal similarity", "statement": "For symmetric A (n >= 1), sym_tridiagonal yields orthogonal Q and symmetric tridiagonal T with non-negative off-diagonal such that Q T Q^T = A; into_diagonals returns exactly the diagonals of into_tridiag_matrix; non-square gives NotSquare, 0x0 gives EmptyMatrix.", "quantifier": "every n, every symmetric matrix (exact arithmetic)", "why_tests_cant": "Tests sample a few sizes (<=10) and values; the claim ranges over every shape and every entry value.", "anchors": ["src/tridiagonal.rs: sym_tridiagonal, generate_q, into_diagonals, into_tridiag_matrix"]}
{"id": "C18", "title": "Bidiagonal decomposition reproduces the matrix", "statement": "For a matrix with both dimensions non-zero, bidiagonal yields U (r x d), B (d x d), Vt (d x c), d = min(r,c), with U^T U = I, Vt Vt^T = I, U B Vt = A, B upper bidiagonal iff r >= c (else lower), non-negative entries, and into_diagonals the diagonals of into_b; an empty matrix gives EmptyMatrix.", "quantifier": "every shape, every matrix (exact arithmetic)", "why_tests_cant": "Tests sample a few sizes (<=10) and values; the claim ranges over every shape and every entry value.", "anchors": ["src/bidiagonal.rs: bidiagonal, generate_u, generate_vt, into_b, into_diagonals, is_upper_diag"]}
{"id": "C19", "title": "eigh always returns an orthogonal eigenvector matrix", "statement": "Whenever eigh/eigh_into return on a symmetric n x n matrix, the eigenvector matrix is n x n orthogonal and there are n eigenvalues.", "quantifier": "every n, every symmetric matrix, every number of QR iterations taken (exact arithmetic)", "why_tests_cant": "The number of sweeps and deflations is data dependent and unbounded.", "anchors": ["src/eigh.rs: symmetric_eig, delimit_subproblem", "src/givens.rs: rotate_rows"]}
{"id": "C20", "title": "Computed eigenvalues are backward stable", "statement": "Whenever eigh/eigvalsh return on a symmetric A, the values are the exact eigenvalues of a symmetric matrix within 2 (n-1) eps ||A||_F of A in Frobenius norm.", "quantifier": "every n, every symmetric matrix, every deflation history, every eps in [0,1) (exact arithmetic apart from the deflation thresholds)", "why_tests_cant": "The deflation history is data dependent; a wrong threshold or a dropped update only shows on particular spectra.", "anchors": ["src/eigh.rs: symmetric_eig, delimit_subproblem, compute_2x2_eigvals"]}
{"id": "C21", "title": "eigh pairs each eigenvalue with its eigenvector", "statement": "Whenever eigh returns (vals, Q) on a symmetric A, A Q is within O(n eps ||A||) of Q diag(vals).", "quantifier": "every n, every symmetric matrix", "why_tests_cant": "Only a rare scaling of a trailing 2x2 block triggers the wrong pairing; random tests never reach it.", "anchors": ["src/eigh.rs: symmetric_eig (2x2 branch, GivensRotation::try_new)"]}
{"id": "C22", "title": "eigvalsh agrees with eigh", "statement": "eigvalsh/eigvalsh_into return exactly the eigenvalues that eigh/eigh_into return on the same matrix: computing eigenvectors never influences the values, the errors, panics or termination.", "quantifier": "every input, any scalar semantics (floating point with NaN and infinities included)", "why_tests_cant": "Tests sample a few sizes (<=10) and values; the claim ranges over every shape and every entry value.", "anchors": ["src/eigh.rs: symmetric_eig, EigValshInto"]}
{"id": "C23", "title": "eigh and eigvalsh are memory safe and panic free", "statement": "On every input eigh/eigvalsh return NotSquare, or Ok of the right shapes, or keep iterating: no out-of-bounds unchecked access, no index underflow, no panicking slice, and (for real arithmetic and for IEEE arithmetic alike) the unwrap of the 2x2 eigenvalue routine never fires.", "quantifier": "every shape, every entry, every iteration history, any scalar semantics", "why_tests_cant": "Unchecked indexing is undefined behaviour in release builds; tests cannot cover every deflation history.", "anchors": ["src/eigh.rs: symmetric_eig, delimit_subproblem, compute_2x2_eigvals", "src/index.rs"]}
{"id": "C24", "title": "SVD reproduces the matrix", "statement": "Whenever svd/svd_into(true,true) return (U,s,Vt) on a non-empty A: U^T U = I, Vt Vt^T = I, all s >= 0, and U diag(s) Vt is within O(d eps ||A||_F) of A.", "quantifier": "every shape, every matrix, every deflation history (exact arithmetic apart from deflation thresholds)", "why_tests_cant": "The deflation history is data dependent; the zero-diagonal chasing paths are almost never exercised by random tests.", "anchors": ["src/svd.rs: svd, delimit_subproblem, cancel_horizontal_off_diagonal_elt, cancel_vertical_off_diagonal_elt, compute_2x2_uptrig_svd"]}
{"id": "C25", "title": "SVD flags select outputs without changing the singular values", "statement": "svd(calc_u, calc_vt) returns Some(U) iff calc_u and Some(Vt) iff calc_vt; the singular values and the vectors returned do not depend on the flags.", "quantifier": "every matrix, all four flag combinations (exact arithmetic)", "why_tests_cant": "Tests sample a few sizes (<=10) and values; the claim ranges over every shape and every entry value.", "anchors": ["src/svd.rs: svd, compute_2x2_uptrig_svd"]}
{"id": "C26", "title": "SVD is memory safe and panic free", "statement": "On every input svd returns EmptyMatrix (iff the matrix has no element), or Ok with the documented shapes, or keeps iterating; no out-of-bounds unchecked access, no index underflow, no panicking slice or unwrap.", "quantifier": "every shape, every entry, every iteration history, any scalar semantics", "why_tests_cant": "Unchecked indexing is undefined behaviour in release builds.", "anchors": ["src/svd.rs: svd, delimit_subproblem, cancel_*", "src/index.rs"]}
{"id": "C27", "title": "SVD sign normalisation preserves the decomposition", "statement": "Making a negative singular value positive flips the sign of the matching column of U, so that U diag(s) Vt is unchanged and U stays semi-orthogonal.", "quantifier": "every reachable diagonal (negative or negative-zero value)", "why_tests_cant": "The branch is only taken after rounding, so example based tests do not enter it.", "anchors": ["src/svd.rs: svd lines 212-221"]}
{"id": "C28", "title": "sort_eig sorts and keeps pairs together", "statement": "sort_eig(order) on eigenvalues, or on (eigenvalues, eigenvectors), returns the values in the requested order as a permutation of the input and moves each eigenvector column with its eigenvalue (stable on ties); with two or more values it panics iff some value is NaN.", "quantifier": "every length, every value list, every vector matrix, both orders, any scalar with a partial order", "why_tests_cant": "Tests sample a few sizes (<=10) and values; the claim ranges over every shape and every entry value.", "anchors": ["src/eigh.rs: EigSort impls, cmp_floats"]}
{"id": "C29", "title": "sort_svd sorts and keeps triples together", "statement": "sort_svd(order) permutes singular values, columns of U and rows of Vt by one common permutation that sorts the values, hence U diag(s) Vt is unchanged; None stays None.", "quantifier": "every length, every value list, every U and Vt, both orders", "why_tests_cant": "Tests sample a few sizes (<=10) and values; the claim ranges over every shape and every entry value.", "anchors": ["src/svd.rs: SvdSort impl"]}
{"id": "C30", "title": "norms are the l1, l2 and max norms", "statement": "norm_l1, norm_l2, norm_max equal sum |x|, sqrt(sum x^2), max |x| over all elements (0 for an empty array); each is absolutely homogeneous, satisfies the triangle inequality, vanishes only on zero; norm_max <= norm_l2 <= norm_l1.", "quantifier": "every array of every shape (exact arithmetic)", "why_tests_cant": "Tests sample a few sizes (<=10) and values; the claim ranges over every shape and every entry value.", "anchors": ["src/norm.rs: Norm"]}
{"id": "C31", "title": "LOBPCG constraint step projects onto the complement of Y", "statement": "After the constraint step the iterate is orthogonal to every column of the full-rank constraint matrix Y, so lobpcg/TruncatedEig::orthogonal_to search the orthogonal complement of span(Y).", "quantifier": "every full-rank Y, every block V (exact arithmetic)", "why_tests_cant": "The only test uses orthonormal constraints, where a missing factor is invisible.", "anchors": ["src/lobpcg/algorithm.rs: apply_constraints, lobpcg", "src/lobpcg/eig.rs: orthogonal_to"]}
{"id": "C32", "title": "LOBPCG residual norms are honest", "statement": "For a linear operator a, the rnorm returned with (eigvals, eigvecs) are exactly the norms ||a(x_i) - lambda_i x_i|| of the returned pairs, on every exit path (converged, iteration cap, inner failure).", "quantifier": "every linear operator, preconditioner, start block, constraint, tolerance and iteration count (exact arithmetic)", "why_tests_cant": "ax is updated incrementally, never recomputed; a dropped update would only drift over many iterations.", "anchors": ["src/lobpcg/algorithm.rs: lobpcg"]}
{"id": "C33", "title": "LOBPCG returns the best iterate seen", "statement": "The returned triple has the smallest residual-norm sum among all iterates examined (first one on ties).", "quantifier": "every operator, start block, tolerance and iteration count", "why_tests_cant": "Ranges over all iteration histories.", "anchors": ["src/lobpcg/algorithm.rs: lobpcg best_result"]}
{"id": "C34", "title": "LOBPCG iteration cap and early rejection", "statement": "lobpcg returns NotThin (without calling the operator) iff the start block has more columns than rows; otherwise it applies the operator at most 1 + min(10 n, maxiter) times.", "quantifier": "every operator, block and maxiter", "why_tests_cant": "Ranges over all operators and iteration histories.", "anchors": ["src/lobpcg/algorithm.rs: lobpcg"]}
{"id": "C35", "title": "Non-convergence is reported", "statement": "If the precision is not reached when the iteration cap is hit, lobpcg / TruncatedEig::decompose return Err (as documented by TruncatedEig::precision).", "quantifier": "every problem, precision and maxiter", "why_tests_cant": "Ranges over all problems.", "anchors": ["src/lobpcg/algorithm.rs: lobpcg line 235", "src/lobpcg/eig.rs: precision doc"]}
{"id": "C36", "title": "orthonormalize returns an orthonormal basis with its factor", "statement": "When the block-orthonormalisation step of lobpcg succeeds on V it returns U, L with U^T U = I, V = U L^T, L lower triangular with positive diagonal; it succeeds iff the columns of V are linearly independent.", "quantifier": "every n x k block (exact arithmetic)", "why_tests_cant": "Tests sample a few sizes (<=10) and values; the claim ranges over every shape and every entry value.", "anchors": ["src/lobpcg/algorithm.rs: orthonormalize"]}
{"id": "C37", "title": "TruncatedEig iterator yields at most n eigenpairs in bounded steps", "statement": "Iterating TruncatedEig with step size s yields chunks of exactly min(s, remaining) eigenvalues, at most n eigenvalues in total, and returns None forever once n have been produced; step size 0 panics at construction; decompose(0) is an empty Ok and decompose(k>n) is NotThin.", "quantifier": "every problem size, step size and history of next() calls, whatever the inner solver returns", "why_tests_cant": "Ranges over histories.", "anchors": ["src/lobpcg/eig.rs: TruncatedEig::decompose, TruncatedEigIterator::new, next"]}
{"id": "C38", "title": "Iterator accumulates every yielded vector as a constraint", "statement": "After each successful next() the constraint matrix is the previous constraints followed by exactly the yielded eigenvectors, in order; a failed next() leaves constraints and remaining unchanged.", "quantifier": "every history of next() calls", "why_tests_cant": "Ranges over histories.", "anchors": ["src/lobpcg/eig.rs: TruncatedEigIterator::next"]}
{"id": "C39", "title": "TruncatedSvd singular values are ordered, positive and aligned with their vectors", "statement": "For Order::Largest values() is non-increasing and strictly positive, for Order::Smallest non-decreasing; each value is the square root of the eigenvalue at the returned index, indices are distinct, and values_vectors returns A v_i = sigma_i u_i (n>m) or A^T u_i = sigma_i v_i for every kept i.", "quantifier": "every eigenvalue list, every eigenvector block, every problem (exact arithmetic, non-zero sigma)", "why_tests_cant": "Tests sample a few sizes (<=10) and values; the claim ranges over every shape and every entry value.", "anchors": ["src/lobpcg/svd.rs: singular_values_with_indices, values, values_vectors"]}
{"id": "C40", "title": "TruncatedSvdResult accessors never panic", "statement": "values() and values_vectors() return on every result produced by decompose, including decompose(0).", "quantifier": "every TruncatedSvd, every num", "why_tests_cant": "The empty decomposition is not exercised by any test.", "anchors": ["src/lobpcg/svd.rs: decompose, singular_values_with_indices"]}
{"id": "C41", "title": "lobpcg does not panic", "statement": "For a linear operator, a total preconditioner, a start block with at least one column and a full-rank (or no) constraint block of the right height, lobpcg returns: no unwrap, index or shape panic happens on any path.", "quantifier": "every size, operator, preconditioner, start block, constraint block, tolerance, iteration count and order (exact arithmetic)", "why_tests_cant": "The panicking calls (unwrap of the constraint factor, of the sort comparison and of best_result, slicing, dot shapes) sit on paths that depend on the whole iteration history.", "anchors": ["src/lobpcg/algorithm.rs: lobpcg, sorted_eig, apply_constraints, orthonormalize"]}
{"id": "C42", "title": "LOBPCG eigenvalues come out in the requested order", "statement": "On every exit path that returns eigenvalues, they are sorted in the requested order (non-increasing for Order::Largest, non-decreasing for Order::Smallest), and if there are at least two of them none is NaN.", "quantifier": "every operator, start block, constraints, tolerance, iteration count and order; every scalar type whose comparison is a total order apart from NaN (binary64 included)", "why_tests_cant": "Ranges over all iteration histories, including those that end by an inner failure.", "anchors": ["src/lobpcg/algorithm.rs: sorted_eig, lobpcg best_result"]}
{"id": "C43", "title": "Triangular solve is backward stable in binary64", "statement": "If solve_triangular returns and column k of the result is finite, that column solves exactly (T + dT) x = b + db with |dT| <= ((1+u)^n - 1)|T| entry by entry (u = 2^-53) and db bounded by (1+u)^n (n + |t_ii|) 2^-1075 (underflow only); the triangle and the right-hand side column are then finite and no pivot is zero. Each entry is computed by exactly the stated operations in the stated order.", "quantifier": "every size, matrix with finite diagonal, right-hand side, triangle and column, in IEEE 754 binary64 (operations: any scalar type)", "why_tests_cant": "A tolerance in a test bounds the forward error on one matrix; the componentwise backward bound holds for all matrices, ill-conditioned ones included.", "anchors": ["src/triangular.rs: SolveTriangularInplace, solve_triangular_system"]}
{"id": "C44", "title": "Cholesky is backward stable in binary64", "statement": "If cholesky returns a finite factor L, then L is exactly lower triangular with positive diagonal, the lower triangle of A is finite and |L L^T - A| <= ((1+u)^(n+2) - 1)|L||L|^T + underflow, entry by entry.", "quantifier": "every size and every matrix (only the lower triangle counts) in IEEE 754 binary64", "why_tests_cant": "Rounding errors of all sizes and conditionings at once, including underflow.", "anchors": ["src/cholesky.rs: cholesky_inplace_dirty, cholesky_inplace"]}
{"id": "C45", "title": "solvec and invc are backward stable in binary64", "statement": "If solvec returns and a column of the result is finite, the column solves (A + dA) x = b + db with |dA| <= ((1+u)^(3n+2) - 1)|L||L|^T + underflow and db of the order of the underflow threshold; likewise for invc with b the unit vectors.", "quantifier": "every size, matrix with finite diagonal and right-hand side, in IEEE 754 binary64", "why_tests_cant": "Composition of three rounding analyses over all inputs.", "anchors": ["src/cholesky.rs: SolveC, InverseC"]}
{"id": "C46", "title": "Accuracy of the norms in binary64", "statement": "norm_max of finite entries is exactly the largest absolute value and finite; norm_l1, if finite, has relative error at most (1+u)^n - 1; norm_l2, if finite, has a square with relative error at most (1+u)^(n+3) - 1 plus n (1+u)^(n+3) 2^-1075.", "quantifier": "every vector of binary64 numbers, any length", "why_tests_cant": "All lengths and magnitudes, including underflow of squares.", "anchors": ["src/norm.rs: Norm"]}
{"id": "C47", "title": "LOBPCG is the Rayleigh-Ritz iteration on [X R P]", "statement": "In exact arithmetic with a symmetric operator, the iterates recorded by a run of lobpcg are those of the textbook method: the first is the Ritz approximation in the span of the orthonormalized start block; each next one is V applied to S = [X R P], with R the residuals of the still active columns, preconditioned, constrained, orthogonalized against X and orthonormalized, P the orthonormalized previous directions if independent (absent otherwise), V the wanted vectors of the pencil (S^T A S, S^T S), and new directions X' - X V_X. A run is cut short by fuel only if a dense eigh of size at most three times the block size is.", "quantifier": "every size, start block, linear symmetric operator, total preconditioner, independent constraints, tolerance, iteration bound and order", "why_tests_cant": "Whole-trace correspondence with a mathematical iteration for all operators and all numbers of steps.", "anchors": ["src/lobpcg/algorithm.rs: lobpcg"]}
{"id": "C48", "title": "generalized_eig and sorted_eig diagonalize the pencil up to the defects of eigh", "statement": "For symmetric A and B, V returned by generalized_eig is invertible, |V^T A V - diag|_F equals the defect |Q^T A' Q - diag|_F of the call of eigh on the whitened matrix A', and |V^T B V - I|_F is at most 1/1e-10 times the defect of the call on B when all values computed for B are at least the literal 1e-10. sorted_eig selects the wanted columns, listed in order, first component not negative, with the same bounds. Hence every iterate of lobpcg is orthonormal and its values are its Rayleigh quotients up to those defects.", "quantifier": "all sizes and symmetric matrices, in exact arithmetic with the tolerances of the code", "why_tests_cant": "Exact relation between errors of nested solvers for all inputs.", "anchors": ["src/lobpcg/algorithm.rs: generalized_eig, sorted_eig"]}
{"id": "C49", "title": "LOBPCG's eigenvalue estimates move monotonically and never pass the spectrum", "statement": "From one iterate of a run to the next, the j-th estimate moves towards the wanted end of the spectrum, up to an explicit error in the defects of the dense solvers (zero when they are exact); and no estimate passes the j-th eigenvalue of A, up to the defects of that iterate.", "quantifier": "every run in exact arithmetic with a symmetric operator, every pair of consecutive iterates, every column", "why_tests_cant": "A min-max (Courant-Fischer) argument over all operators, preconditioners and iterations.", "anchors": ["src/lobpcg/algorithm.rs: lobpcg"]}
{"id": "C50", "title": "The QR iteration of eigh terminates in exact arithmetic, with a bound", "statement": "wilkinson_shift returns the eigenvalue of the trailing 2x2 block closest to its last entry. One shifted sweep over an unreduced block satisfies b1'^4 <= (b1 b2)^2/2 and (b1'^2 b2')^2 <= (b1^2 b2)^2/2 for the last two off-diagonal entries. Hence eigh and eigvalsh return within n(N+416) iterations on every symmetric matrix whose smallest singular value exceeds the total deflation perturbation, where N bounds the eighth power of the condition number.", "quantifier": "every symmetric real matrix of every size with smallest singular value above 2(n-1) eps |A|_F; every fuel above the bound", "why_tests_cant": "The loop has no iteration cap: a test that hangs on one matrix says nothing about the others, and no finite set of matrices shows the loop always ends.", "anchors": ["src/eigh.rs:51-128: main loop", "src/eigh.rs:179-187: wilkinson_shift"]}
{"id": "C51", "title": "The QR iteration of svd terminates in exact arithmetic on every matrix, with a bound", "statement": "On every nonempty matrix, singular or not, and for all flags, svd returns within min(r,c) * (8 L + 1192) iterations where r c <= 2^L. One shifted sweep over an unreduced block satisfies p1'^4 <= (p1 p2)^2/2 and (p1'^2 p2')^2 <= (p1^2 p2)^2/2 for the last two products p = d*o of diagonal and off-diagonal entries. With C24 this is total correctness: svd returns an orthonormal U, an orthonormal V and nonnegative singular values that reproduce the input up to the deflation tolerance.", "quantifier": "every nonempty real matrix of every shape, all flags, every fuel above the bound", "why_tests_cant": "The loop has no iteration cap, so a hang would be input dependent; no finite set of matrices shows that it always ends, nor gives a bound depending on the size alone.", "anchors": ["src/svd.rs:55-208: main loop", "src/svd.rs:226-366: delimit_subproblem and the cancellations"]}
{"id": "C52", "title": "svd does not terminate on NaN or infinity", "statement": "In binary64, svd of a matrix with both dimensions at least three whose first column (first row if it has more columns than rows) contains a NaN or an infinity runs forever, whatever the other entries and the flags. The termination claim of C51 is therefore false for binary64.", "quantifier": "every binary64 matrix with min(r,c) >= 3 and a non-finite entry in the leading column or row, all flags, every number of iterations", "why_tests_cant": "A test can observe a timeout but not that the loop never ends; and it would try a few positions and values, not all of them.", "anchors": ["src/svd.rs:55-208: main loop", "src/svd.rs:226-287: delimit_subproblem comparisons"]}
{"id": "C53", "title": "TruncatedEig and TruncatedSvd from end to end", "statement": "In exact arithmetic: TruncatedSvd::decompose is one LOBPCG run on the smaller Gram matrix of the problem with the square of the requested precision, never panics, and fails only when more pairs are requested than min(n,m) or the random start block is linearly dependent. Of the triplets delivered by values_vectors, one of A v = s u and A^T u = s v holds exactly, and the residual of the other one times s is the residual norm reported by the run. TruncatedEig::decompose never panics, leaves all settings but the random generator unchanged and reports the true residual norms. The iterator delivers a block only if all its residuals are at most 0.1 and withholds one only if a residual exceeds 0.1 or the run has no result.", "quantifier": "every real matrix, random generator, number of pairs, order, precision, iteration limit, preconditioner and independent constraints, every returning run", "why_tests_cant": "The residual identities relate the internal run to the delivered triplets for all problems and all random draws; tests check a few problems up to a tolerance and cannot show the absence of panics.", "anchors": ["src/lobpcg/svd.rs:176-243: decompose", "src/lobpcg/svd.rs:28-104: TruncatedSvdResult", "src/lobpcg/eig.rs:138-172: decompose", "src/lobpcg/eig.rs:240-300: iterator"]}
{"id": "C54", "title": "Householder QR in binary64 is backward stable", "statement": "If the factors Q^ and R^ computed by qr_into / into_decomp in binary64 are finite and every diagonal entry of R^ is zero or between 2^-480 and 2^510, then A is finite and there is an exactly orthonormal Q with |A - Q R^|_j <= g |A|_j + c(1+g) 2^-507 for every column j and |Q^ - Q|_j <= g + c(1+g) 2^-507, where g = (1+2^-53)^(c(10n+70)) - 1. Consequently Q^R^ reproduces A column by column and Q^TQ^ is the identity up to twice that error. Outside the range of the diagonal the claim is false: a 1x1 matrix [2^511] gives finite factors with Q^R^ = -A, and 77*2^-543 gives Q^Q^ > 2.", "quantifier": "every binary64 matrix with n >= c, at most 2^47 rows, whose computed factors are finite and in range; rank-deficient matrices included", "why_tests_cant": "A tolerance chosen for a few matrices proves no bound; the bound holds for every shape, rank and conditioning, and the loss of sign at 2^511 needs an input no test tries.", "anchors": ["src/householder.rs:9-31: reflection_axis_mut", "src/householder.rs:34-55: clear_column", "src/householder.rs:68-96: assemble_q", "src/reflection.rs:26-33: reflect_cols", "src/qr.rs:32-50: qr_into", "src/qr.rs:86-106: generate_q, into_r, into_decomp"]}
{"id": "C55", "title": "solve, inverse and least_squares with QR in binary64 are backward stable", "statement": "If the diagonal of R computed by qr_into in binary64 is between 2^-480 and 2^510 and a column x of the result of solve_into is finite, then A and that column b of the right-hand side are finite and x is the exact, unique least-squares solution of a problem A~ x ~ b~ (the exact solution of A~ x = b~ if A is square) with |A~ - A|_j <= ((1+2^-53)^(c(10n+71)) - 1) |A|_j + 2c(1+g)2^-507 for every column j and |b~ - b| <= g |b| + 2c(1+g)2^-507, g = (1+2^-53)^(c(10n+70)) - 1; A~ has full rank. inverse: column k solves such a perturbed system for the unit vector e_k. least_squares of a thin matrix is this computation.", "quantifier": "every binary64 matrix with n >= c > 0, at most 2^47 rows, every right-hand side with any number of columns, every finite result column", "why_tests_cant": "Tests compare against exact solutions of small well-conditioned problems; backward stability is the claim that holds for every conditioning and shape, and it is not observable from a forward error.", "anchors": ["src/qr.rs:110-120: qt_mul", "src/qr.rs:124-152: solve_into", "src/qr.rs:200-203: inverse", "src/qr.rs:219-228: least_squares_into", "src/triangular.rs: solve_triangular_system"]}
{"id": "C56", "title": "solve_tr and wide least_squares in binary64 are close to the minimum-norm solution of a nearby problem", "statement": "Under the same range condition on the diagonal of R, a finite column x computed by solve_tr_into satisfies |x - x~| <= sqrt(c) (e + ((1+2^-53)^(c+1) - 1)(1+e)) |x~| + 2^-507, where x~ is the exact, unique minimum-norm solution of A~^T x~ = b~, |A~ - A|_j is bounded as in C55, b~ differs from b by at most 2^-507 per entry, and e is the orthogonality error of the computed Q (C54). least_squares of a wide matrix is this computation on the transpose.", "quantifier": "every binary64 matrix with n >= c, at most 2^47 rows, every right-hand side, every finite result column", "why_tests_cant": "The bound relates the computed vector to the exact minimum-norm solution of a problem that is not the given one; no finite set of examples shows it for all shapes and conditionings.", "anchors": ["src/qr.rs:156-181: solve_tr_into", "src/qr.rs:86-93: generate_q", "src/qr.rs:219-228: least_squares_into"]}
{"id": "C57", "title": "Binary64 Cholesky accepts safely positive definite matrices and rejects safely indefinite ones", "statement": "With e = (1+2^-53)^(2n+20) - 1: if the diagonal of a finite matrix lies between 2^-900 and 2^1000 and x^T A x >= (n+4) e sum a_ii x_i^2 for every real x, then cholesky succeeds in binary64, the factor is finite, lower triangular with positive diagonal, and |L L^T - A|_ij <= e sqrt(a_ii a_jj). If x^T A x < -n e sum a_ii x_i^2 for some x, then cholesky returns no finite factor. That it always returns an error for such matrices is false: a finite symmetric indefinite 4x4 matrix is accepted with a factor containing NaN, because NaN passes the pivot test.", "quantifier": "every binary64 matrix of every size with diagonal in the stated range", "why_tests_cant": "Acceptance of all matrices with a given margin is a statement about every rounding error in every pivot; tests only show that some matrices are accepted, and the NaN acceptance needs an overflow no test tries.", "anchors": ["src/cholesky.rs:51-76: cholesky_inplace_dirty", "src/cholesky.rs:69-71: pivot test", "src/cholesky.rs:78-82: cholesky_inplace"]}
{"id": "C58", "title": "Underflow in the Householder step makes binary64 eigenvalues and singular values wrong", "statement": "The claim that eigvalsh and svd return values close to the true ones for every finite input in binary64 is false. For t = 78*2^-543 the symmetric matrix [[1,t],[t,1]] has both eigenvalues within 2^-536 of 1, yet eigvalsh returns one above 2; every singular value of [[1,0],[t,1]] is at most 1 + 2^-536, yet svd returns one above 1.4. The square of t is subnormal, so the Householder axis is not a unit vector and the reflection scales the trailing block.", "quantifier": "explicit witnesses against a claim about every finite binary64 matrix", "why_tests_cant": "Tests use matrices with entries near 1; the wrong results need an off-diagonal entry so small that only its square underflows.", "anchors": ["src/householder.rs:9-29: reflection_axis_mut", "src/tridiagonal.rs:31-66: sym_tridiagonal", "src/bidiagonal.rs:27-59: bidiagonal", "src/eigh.rs:10-130: symmetric_eig", "src/svd.rs:17-225: svd"]}
{"id": "C59", "title": "Symmetric tridiagonalisation in binary64 is backward stable", "statement": "For every exactly symmetric finite binary64 matrix A with |A|_F <= 2^498 and r = 650 n^2 ((1+2^-53)^(2n+20) - 1) <= 1 (all n <= 10000), sym_tridiagonal, generate_q and into_matrix return. If every off-diagonal entry of the returned t is 0 or at least 2^-480, then t and q are finite, t is symmetric tridiagonal, and there is an exactly orthogonal Q with |A - Q t Q^T|_F <= r (|A|_F + 2^-450) and every column of q within about n(10n+70) 2^-53 of that of Q. Hence q t q^T reproduces A, q is orthogonal up to rounding, and every exact eigenpair of t gives an approximate eigenpair of A with residual at most r (|A|_F + 2^-450). Nothing is assumed about intermediate values.", "quantifier": "every symmetric finite binary64 matrix of the stated size and norm", "why_tests_cant": "A bound on the accumulated rounding error, the growth of the trailing block and the loss of symmetry over all steps for all inputs; tests compare a few small matrices with a loose tolerance.", "anchors": ["src/tridiagonal.rs:31-66: sym_tridiagonal", "src/tridiagonal.rs:90-92: generate_q", "src/tridiagonal.rs:104-113: into_matrix", "src/householder.rs:9-29: reflection_axis_mut", "src/householder.rs:68-93: assemble_q"]}
{"id": "C60", "title": "Bidiagonalisation in binary64 is backward stable", "statement": "For every non-empty finite binary64 matrix A (r x c, d = min, n = max) with |A|_F <= 2^498 and n(10n+70) 2^-53 <= 1/100 (all n <= 10^6), bidiagonal, generate_u, into_b and generate_vt return, with b upper bidiagonal when r >= c and lower bidiagonal otherwise. If every entry of b is 0 or at least 2^-480, then u, b, vt are finite, b >= 0, and there are P, Q with exactly orthonormal columns with |A - P b Q^T|_F <= 4 d ((1+2^-53)^(10n+70) - 1) (|A|_F + 2^-450) and every column of u and of vt^T within about d(10n+70) 2^-53 of that of P and Q. Hence u b vt reproduces A, u and vt are orthogonal up to rounding, and every exact singular triple of b gives an approximate singular triple of A with residual at most that bound. Nothing is assumed about intermediate values.", "quantifier": "every finite binary64 matrix, tall or wide, of the stated size and norm", "why_tests_cant": "A bound on the accumulated rounding error over all left and right reflections for all inputs and both orientations; tests compare a few small matrices with a loose tolerance.", "anchors": ["src/bidiagonal.rs:27-59: bidiagonal", "src/bidiagonal.rs:90-97: generate_u", "src/bidiagonal.rs:101-109: generate_vt", "src/bidiagonal.rs:113-123: into_b", "src/householder.rs:9-29: reflection_axis_mut", "src/householder.rs:31-66: clear_column, clear_row", "src/householder.rs:68-93: assemble_q"]}
{"id": "C61", "title": "Binary64 eigh can return vectors that are not close to any eigenvector", "statement": "The claim that every column v of the matrix returned by eigh in binary64 satisfies ||A v - lam v|| <= eps ||A|| for the returned value lam, with eps a modest multiple of machine precision, is false. For the symmetric matrix [[-1,o],[o,fl(1/10)]] with o = 5*2^-54 eigh succeeds and its first vector v has norm close to 1 and ||A v - lam v|| >= ||v||/5 for every number lam. The returned values are correct: the two by two case builds its rotation from l1 - d1, which cancels completely when d0 < d1 and o is just above the deflation threshold.", "quantifier": "an explicit witness matrix, with the residual bounded below for every real lam, against a claim about every finite symmetric binary64 matrix", "why_tests_cant": "Tests use matrices whose last two by two block has an off-diagonal entry comparable to the diagonal; the wrong vectors need an entry a few units in the last place above the deflation threshold.", "anchors": ["src/eigh.rs:103-123: eigenvectors of the two by two case", "src/eigh.rs:189-199: compute_2x2_eigvals", "src/givens.rs:47-56: try_new"]}
{"id": "C62", "title": "Eigenvalues computed in binary64 are backward stable", "statement": "For every exactly symmetric matrix A of finite binary64 numbers, n >= 1 (any norm; the size conditions hold for n <= 10000 and 10^8 iterations), and for every hypot accurate to one ulp: if the off-diagonal entries of the tridiagonal form of the scaled matrix are 0 or at least 2^-480, and eigvalsh returns finite values without any hypot result below 2^-1000, then the returned values are exactly the eigenvalues (with multiplicity) of a matrix V diag(vals) V^T, V orthogonal, with |A - V diag(vals) V^T|_F <= eig_eps(n,fuel) |A|_F + n 2^-1075, where eig_eps = 3 rel_trd(n) + 8000 (fuel+1)(n+1) 2^-53 and fuel bounds the number of iterations. Hence every returned value has a unit vector with residual below that bound, and every exact eigenvalue of A is within that bound of a returned value. The same holds for the values of eigh.", "quantifier": "every finite symmetric binary64 matrix, every number of iterations, every hypot within one ulp", "why_tests_cant": "A bound on the accumulated rounding error of scaling, tridiagonalisation and an unbounded number of shifted QR sweeps, deflations and two by two solves, for all inputs; tests compare a few small matrices with a loose tolerance and one libm.", "anchors": ["src/eigh.rs:10-132: symmetric_eig", "src/eigh.rs:134-171: delimit_subproblem", "src/eigh.rs:179-199: wilkinson_shift, compute_2x2_eigvals", "src/eigh.rs:249-267: eigvalsh", "src/givens.rs:17-27: cancel_y", "src/tridiagonal.rs:31-66: sym_tridiagonal"]}
{"id": "C63", "title": "The eigenvector matrix computed in binary64 is orthogonal up to rounding", "statement": "Under the hypotheses of C62 (exactly symmetric finite A, any hypot accurate to one ulp, tridiagonal form outside the underflow range, finite returned values, no hypot result below 2^-1000) and sqrt(n) eps_qr(n,n) <= 1/2 (true for n <= 10000): the matrix Q returned by eigh has only finite entries and is within orth_eps = sqrt(n) eps_qr(n,n) + 640/3 (fuel+1)(n+1) 2^-53 of an exactly orthogonal matrix in Frobenius norm, so |Q^T Q - I|_F <= 3 orth_eps, below 10^-7 for n <= 100 and up to 1000 iterations. (Orthogonality is all that holds: by C61 the columns need not be eigenvectors of any nearby pair.)", "quantifier": "every finite symmetric binary64 matrix, every number of iterations, every hypot within one ulp", "why_tests_cant": "Accumulated rounding error of an unbounded number of rotations applied to the reflectors' product, for all inputs and every libm; tests check a few small matrices on one libm.", "anchors": ["src/eigh.rs:10-132: symmetric_eig", "src/eigh.rs:205-247: eigh, eigh_into", "src/givens.rs:47-60: try_new", "src/givens.rs:78-99: rotate_rows", "src/tridiagonal.rs:90-94: generate_q"]}
{"id": "C64", "title": "Singular values computed in binary64 without vectors are backward stable", "statement": "For every r x c matrix A of finite binary64 numbers, r,c >= 1 (any norm; the size conditions hold up to 10000 x 10000 and 50000 iterations), and for every hypot that is accurate to one ulp and maps NaN or infinity to NaN or infinity: if the entries of the bidiagonal form of the scaled matrix are 0 or at least 2^-480, and svd called without vectors returns finite values without any hypot result below 2^-1000, then min(r,c) values are returned, none negative, and they are exactly the singular values of a matrix P diag(vals) Q^T, P and Q with orthonormal columns, with |A - P diag(vals) Q^T|_F <= sv_eps(r,c,fuel) |A|_F + d 2^-1075, where d = min(r,c), sv_eps = 3 rel_bid(r,c) + 8000 (fuel+1)(d+3)^2 2^-53 and fuel bounds the number of iterations. Hence every returned value s has unit vectors u, v with ||A v - s u|| and ||A^T u - s v|| below that bound. (With vectors the claim is false: C24_binary64_refuted, C25_binary64_refuted.)", "quantifier": "every finite binary64 matrix of every shape, every number of iterations, every hypot within one ulp", "why_tests_cant": "A bound on the accumulated rounding error of scaling, bidiagonalisation and an unbounded number of implicit QR sweeps, zero-chasing, deflations and two by two solves, for all inputs; tests compare a few small matrices with a loose tolerance and one libm.", "anchors": ["src/svd.rs:17-224: svd", "src/svd.rs:226-287: delimit_subproblem", "src/svd.rs:289-369: cancel_horizontal_off_diagonal_elt, cancel_vertical_off_diagonal_elt", "src/svd.rs:371-412: compute_2x2_uptrig_svd", "src/givens.rs:17-45: cancel_y, cancel_x", "src/bidiagonal.rs: bidiagonal"]}
{"id": "C65", "title": "Sorted eigenvalues and singular values are accurate position by position", "statement": "Weyl: if V diag(vals) V^T (V orthogonal) is within b of A in Frobenius norm, then after sorting, the k-th value differs by at most b from the k-th eigenvalue of A, for every exact spectral decomposition of A listed in the same order (ascending or descending); likewise for singular values of rectangular matrices. Consequences, for both sort orders: under the hypotheses of C62, sort_eig on the result of eigvalsh in binary64 does not panic and every sorted value is within eig_eps(n,fuel)|A|_F + n 2^-1075 of the exact eigenvalue at its position; under the hypotheses of C64 the same for svd without vectors followed by sort_svd with sv_eps(r,c,fuel)|A|_F + d 2^-1075; in exact arithmetic eigvalsh and sort_eig are within (n-1) 2^-51 |A|_F and svd (any flags) and sort_svd within 10 (d-1) 2^-52 |A|_F of the exact values.", "quantifier": "every matrix (symmetric for eigenvalues), every number of iterations, both orders, every position, every exact decomposition; binary64 for every hypot within one ulp", "why_tests_cant": "Compares with the exact spectrum, which tests do not have, at every position for all inputs; a test can only compare a few matrices with known eigenvalues.", "anchors": ["src/eigh.rs:249-267: eigvalsh", "src/eigh.rs:270-323: EigSort", "src/svd.rs:17-224: svd", "src/svd.rs:486-528: SvdSort"]}
{"id": "C66", "title": "Forward error of the direct solvers in binary64", "statement": "Let A be invertible with inverse G and x* the exact solution of A x = b. solve_triangular: |x_i - x*_i| <= sum_j |G_ij| (gam n (|T||x|)_j + underflow), entry by entry. solvec (lower triangle of A, t its trace): |x - x*| <= |G| (e |x| + e0) and (1 - |G| e) |x - x*| <= |G| (e |x*| + e0) with e = 2 t gam(3n+2) + underflow. qr.solve and qr.inverse on square A: the same with e = gam(n(10n+70)+n) |A|_F + underflow. Overdetermined least squares, P the pseudo-inverse and x* the minimiser: |x - x*| <= |P| (e |x| + e0) + |P|^2 e (|A x* - b| + e0 + e |x*|) (Wedin).", "quantifier": "every matrix and right-hand side whose computed solution column is finite (QR: diagonal of R clear of over- and underflow), every column, every n up to 2^47", "why_tests_cant": "The bound is relative to the exact solution and the conditioning of an arbitrary system; a test compares with a tolerance on a few well-conditioned systems.", "anchors": ["src/triangular.rs:94-232: solve_triangular", "src/cholesky.rs:120-200: solvec, invc", "src/qr.rs:124-203: solve, inverse", "src/qr.rs:219-247: least_squares"]}
{"id": "C67", "title": "Which linear systems are accepted as solvable in binary64", "statement": "If A has a left inverse P with |P|_F (gam(c(10n+70)) |A|_F + underflow) < 1 then the QR of A computed in binary64 has no zero on the diagonal: is_invertible is true and solve, solve_tr and inverse return a result. solvec and invc return a result on every matrix with x^T A x >= (n+4) gam(2n+20) sum a_ii x_i^2. The converse is false (refuted): the exactly singular [[1,1],[1,1]] is accepted and inverse returns finite numbers. What holds instead: if w A = 0 for a unit vector w, an accepted x satisfies e |x| >= |w . b| - e0, so the answer to an inconsistent singular system is huge.", "quantifier": "every matrix with finite factors and a diagonal of R clear of over- and underflow (Cholesky: diagonal in [2^-900, 2^1000]), every right-hand side", "why_tests_cant": "The accept/reject boundary depends on rounding errors of an arbitrary matrix; the only test of NonInvertible uses the zero matrix.", "anchors": ["src/qr.rs:124-203: solve, solve_tr, is_invertible, inverse", "src/cholesky.rs:120-200: solvec, invc"]}
{"id": "C68", "title": "Singular vectors computed in binary64 are orthonormal up to rounding", "statement": "If svd with both vectors returns finite matrices u and vt, then vt^T is within e (Frobenius norm) of a matrix with orthonormal columns, and there is a matrix with orthonormal columns from which every column of u is at most e away, except those the sign normalisation set to zero. e = sqrt d (gam(d(10n+70)) + underflow) + 90 (fuel+1)(2d^2+d) 2^-53, n and d the larger and the smaller dimension: below 3 10^-7 for n <= 100, fuel <= 500. Consequently all inner products are within 2e + e^2 of those of an orthonormal system. It holds for any values, including the runs in which U S Vt differs from A (C24_binary64_refuted).", "quantifier": "every non-empty matrix of finite numbers up to 10000 x 10000 (bidiagonal form exact zero or not subnormal), every number of iterations up to 20000, every hypot that is accurate to 3 units of roundoff where it does not return NaN", "why_tests_cant": "An orthogonality test checks a few matrices with one tolerance; the claim covers every sequence of rotations the iteration can take.", "anchors": ["src/svd.rs:17-412: svd, every update of u and vt", "src/givens.rs:17-110: rotations", "src/bidiagonal.rs:90-112: generate_u, generate_vt"]}
{"id": "C69", "title": "Scaling the input does not change the computed vectors", "statement": "Let b be exactly k times a (k > 0 real, not only powers of two), same signs, entries finite and not all zero. svd on b (any flags) has the same outcome as on a, returns bit for bit the same u and vt, and the singular values are |fl(d_i amax)| and |fl(d_i bmax)| for the same numbers d_i, where amax and bmax are the largest magnitudes. eigh and eigvalsh likewise: the same eigenvectors, values fl(d_i amax) and fl(d_i bmax). Hence a value for b is k times the value for a up to 3 units of roundoff and underflow, and exactly so when k is a power of two and nothing underflows.", "quantifier": "every pair of matrices of finite binary64 numbers with b = k a exactly, every k, flags, number of iterations and hypot", "why_tests_cant": "A relation between two runs on arbitrary matrices and scales, bit for bit; a test can try a few scales.", "anchors": ["src/svd.rs:29-36, 209-221: scaling by the largest magnitude", "src/svd.rs:17-224: svd", "src/eigh.rs:19-130: symmetric_eig", "src/eigh.rs:27-34: scaling"]}
{"id": "C70", "title": "The SVD of the transpose interchanges u and vt bit for bit", "statement": "For an r x c matrix with r <> c, svd(A, cu, cv) and svd(A^T, cv, cu) have the same outcome, the same singular values in the same order bit for bit, and column j of u of the one equals row j of vt of the other, or is minus zero times it (both for the same j; the sign normalisation). In binary64 and in exact arithmetic. For square matrices the claim is false in binary64 (refuted): the singular values of [[1,2],[3,5]] and of its transpose differ in the last digits.", "quantifier": "every rectangular matrix (binary64: any entries, also infinities and NaN), all flags, every number of iterations, every hypot", "why_tests_cant": "A relation between two runs through different code paths (upper and lower bidiagonal form, rotations of u and of vt) for all inputs; the tests run each path on a few matrices and compare with tolerances.", "anchors": ["src/svd.rs:17-224: svd", "src/svd.rs:226-412: delimit_subproblem, cancel_horizontal_off_diagonal_elt, cancel_vertical_off_diagonal_elt", "src/bidiagonal.rs:27-112: bidiagonal, generate_u, generate_vt", "src/householder.rs:34-63: clear_column, clear_row"]}
{"id": "C71", "title": "A NaN in the input is never lost", "statement": "In binary64, a call whose input contains a NaN either does not return or returns a result that shows it. solve_triangular: every unknown computed after the NaN is NaN. cholesky: the entry itself and the diagonal from its row on. solvec, invc, inverse, QR solve and least_squares: a NaN in the matrix makes every entry of the solution NaN (or the matrix is reported singular), a NaN in column k of the right hand side makes column k NaN. qr: the diagonal of R is NaN from the column of the NaN on, or the matrix is reported singular. norm_l1 and norm_l2 are NaN. eigh and eigvalsh: a NaN or infinity in the lower triangle gives a NaN eigenvalue. svd: a NaN or infinity gives a singular value that is NaN or infinite. norm_max is the exception (refuted): it ignores NaN.", "quantifier": "every matrix and right hand side with a NaN (for eigh, svd: or an infinity) at any position, any other entries, every number of iterations; eigh for every hypot, svd for every hypot that does not make a NaN or infinity finite", "why_tests_cant": "No test feeds a NaN. Comparisons with a NaN are false, so every pivot, rank, deflation and convergence test takes an unplanned branch; only a proof covers every position of the NaN and every later branch.", "anchors": ["src/triangular.rs:93-187: solve_triangular", "src/cholesky.rs:51-76: cholesky_inplace_dirty, pivot test", "src/qr.rs:108-228: is_invertible, solve, solve_tr, least_squares", "src/eigh.rs:10-199: symmetric_eig", "src/svd.rs:17-412: svd", "src/norm.rs:25-35: norms", "src/householder.rs:9-63: reflection_axis_mut, clear_column"]}
{"id": "C72", "title": "Givens rotations", "statement": "cancel_y(x, y) returns None exactly when y is zero and otherwise an orthogonal 2x2 matrix R = [[c, -s], [s, c]] and the length r of (x, y) with R (x, y) = (r, 0); cancel_x likewise with R (x, y) = (0, r). new(c, s) normalises (c, s), the identity for (0, 0), and try_new refuses a norm of at most eps. inverse is the transposed matrix. rotate_rows(lhs) is lhs * R and rotate_cols(rhs) is R * rhs; they fail exactly when the inner dimension is not 2, with WrongColumns and WrongRows respectively. In binary64, for every hypot within one ulp, the computed c and s are within 6 u of the exact cosine and sine and r within 3 u relatively, for operands of at most 2^500 whose length is at least 2^-1000.", "quantifier": "all real x, y, c, s, eps >= 0; all matrices; all finite binary64 operands in the stated range and every hypot within one ulp", "why_tests_cant": "The unit tests rotate one vector and two small matrices; the sign conventions of the four functions must agree for every input for the sweeps of eigh and svd to be similarity transformations.", "anchors": ["src/givens.rs:12-27: cancel_y", "src/givens.rs:28-38: cancel_x", "src/givens.rs:40-75: identity, try_new, new, inverse", "src/givens.rs:77-111: rotate_rows, rotate_cols"]}
{"id": "C73", "title": "Householder primitives", "statement": "reflection_axis_mut panics only on an empty column, returns None exactly for a zero column (left zero), and otherwise overwrites the column with a unit vector v and returns x = -sign(c_0) * |c| such that the mirror image of the column across the plane orthogonal to v is (x, 0, ..., 0). clear_column(i, s) applies to the columns right of i an orthogonal matrix P that acts on the rows from i+s on, takes column i to (unchanged part, |x|, 0, ..., 0), leaves the columns left of i and column i above row i+s untouched, and stores the axis in column i; clear_row is the same for rows. assemble_q multiplies the stored reflections in order, and its columns are orthonormal when the stored axes are unit or zero.", "quantifier": "all real columns and matrices, all positions i and shifts s in range, all signs passed to assemble_q", "why_tests_cant": "The unit test reflects three columns; sign, storage and frame conventions shared by qr, tridiagonal and bidiagonal must hold at every index and shift.", "anchors": ["src/householder.rs:9-28: reflection_axis_mut", "src/householder.rs:34-51: clear_column", "src/householder.rs:57-63: clear_row", "src/householder.rs:68-93: assemble_q"]}
{"id": "C74", "title": "Closed forms for 2x2 eigenvalues and singular values", "statement": "compute_2x2_eigvals returns Some exactly when the (possibly nonsymmetric) 2x2 matrix has real eigenvalues, and then exactly its eigenvalues with multiplicity, the larger first. compute_2x2_uptrig_svd on an upper triangular matrix with positive diagonal and nonzero off-diagonal entry returns positive s1, s2 and rotations U, V with U diag(s1, s2) V^T the matrix; the numbers do not depend on which vectors are requested. (The Wilkinson shift is C50_wilkinson_shift.)", "quantifier": "all real 2x2 matrices; all upper triangular ones with positive diagonal and nonzero off-diagonal entry, all flags", "why_tests_cant": "The tests evaluate four 2x2 matrices; the closed forms must be right for every pair of diagonal entries the iteration can reach, including nearly equal ones and both orders.", "anchors": ["src/eigh.rs:189-199: compute_2x2_eigvals", "src/svd.rs:371-412: compute_2x2_uptrig_svd"]}
{"id": "C75", "title": "Columns of a right-hand side are solved independently", "statement": "For solve_triangular, solvec, least_squares and the solve and solve_tr of a QR decomposition: if two right-hand sides have a common column (at any two positions, whatever the other columns hold, including NaN, and however many there are), both calls have the same outcome: the same error, or solutions that agree entry for entry in that column. In particular column j of a solution is the solution for column j alone, and column j of invc or of the QR inverse is the solution for unit vector j. This holds in every scalar semantics, so in binary64 it is equality of the computed numbers, not closeness.", "quantifier": "all shapes, all matrices, all right-hand sides, all columns, every interpretation of the scalar operations", "why_tests_cant": "The tests compare results with tolerances and solve for one or two right-hand sides; leakage between columns (a reused accumulator, a slice one column too wide) shows only for particular column contents.", "anchors": ["src/triangular.rs: solve_triangular_system_common, SolveTriangular*", "src/cholesky.rs: solvec_inplace, invc_inplace", "src/qr.rs: qt_mul, solve_into, solve_tr_into, inverse, least_squares_into", "src/householder.rs: reflect_cols"]}
{"id": "C76", "title": "Computed eigenvalues are Rayleigh quotients: trace, range and definiteness are kept exactly", "statement": "In exact arithmetic, for every symmetric matrix on which eigvalsh (or eigh) returns: there is an orthonormal basis such that every returned value is exactly v^T A v for its basis vector v, however much the iteration dropped by deflation. Hence the values sum exactly to the trace, none lies outside the numerical range [min, max] of x^T A x / x^T x, all are nonnegative (positive) when A is positive semidefinite (definite), and their squares sum to at most the squared Frobenius norm. The definiteness part is false in binary64: [[4, 10], [10, 25]] is positive semidefinite and gets a negative eigenvalue.", "quantifier": "all symmetric real matrices of all sizes, all fuels for which the iteration returns; refutation in binary64 by a witness", "why_tests_cant": "The tests check residuals with a tolerance of 1e-5 or so; that every approximation made by the iteration keeps the diagonal (and so the trace and the sign of the values) is a property of each deflation and rotation, for all matrices.", "anchors": ["src/eigh.rs: symmetric_eig, delimit_subproblem, compute_2x2_eigvals, EighInto::eigh_into, EigValshInto::eigvalsh_into"]}
{"id": "C77", "title": "What is configured on TruncatedEig and TruncatedSvd is what LOBPCG runs with", "statement": "A solver object made by new_with_rng and any subset of the builder methods, in any order (the last call of a method counts), makes decompose run LOBPCG exactly once with: the product with the problem (for TruncatedSvd the Gram operator of the smaller side) as operator, the given precision (squared for TruncatedSvd) or 1e-5, the given iteration limit or twice the number of rows, the given constraints or none, the given preconditioner (the product with that matrix; a matrix of another shape panics) or none, and a start block filled row by row with successive draws. The object keeps all its settings and its generator advances by exactly rows * num draws. In every run the explicit Gram matrices are used: the flag starts true and is only or-ed, so the branches without them and the f32/f64 thresholds are dead code.", "quantifier": "every scalar semantics (exact and binary64), all problems, settings, generators and numbers of pairs > 0; for the flag all operators, preconditioners, constraints and runs", "why_tests_cant": "The tests always set precision and maxiter, never a preconditioner, and see a wrong default or a setting that does not arrive only as a different number of iterations; that a branch is dead is not observable by running the code.", "anchors": ["src/lobpcg/eig.rs:57-172", "src/lobpcg/svd.rs:122-241", "src/lobpcg/mod.rs:30-38", "src/lobpcg/algorithm.rs:191, 264-299, 331-335"]}
{"id": "C78", "title": "Diagonal matrices: no iteration, no fill-in, eigenvectors exactly the identity", "statement": "For a diagonal matrix with finite entries eigh returns without iterating (any fuel, even 0) and its eigenvectors are exactly the identity. In exact arithmetic the eigenvalues are the diagonal in its order. In binary64 each is the diagonal entry divided by the largest magnitude and multiplied by it again, so within 3u relative plus a subnormal term; they are not always the diagonal entries themselves (refuted by diag(49, 1)). solve_triangular with a diagonal matrix performs one division per entry, and cholesky of a positive diagonal never fails and returns the rounded square roots with zeros elsewhere.", "quantifier": "all sizes, all finite diagonals (for cholesky positive, for triangular solves nonzero with finite quotients), all fuels, both zeros off the diagonal", "why_tests_cant": "The tests contain a few small matrices; that signed zeros never turn into anything else and no rounding touches the eigenvectors holds or fails for infinitely many diagonals and sizes.", "anchors": ["src/eigh.rs:10-176", "src/tridiagonal.rs:28-94", "src/householder.rs:9-93", "src/triangular.rs:93-187", "src/cholesky.rs:51-82"]}
{"id": "C79", "title": "Cholesky, QR, least squares and eigvalsh agree with each other", "statement": "In exact arithmetic: for a thin A, cholesky(A^T A) succeeds exactly when the QR decomposition of A reports full rank, and its factor is the transpose of R; least_squares(A, b) equals solvec(A^T A, A^T b); for a positive definite matrix solvec, qr().solve and least_squares return the same solution and invc and qr().inverse the same inverse; if cholesky succeeds all values of eigvalsh are positive and sum to the squared Frobenius norm of the factor, and a value that is not positive means that cholesky fails. In binary64 the verdicts on rank can differ (refuted by the Laeuchli matrix with e = 2^-30).", "quantifier": "all sizes with at least as many rows as columns, all real matrices and right-hand sides", "why_tests_cant": "The tests check each solver against its own residual on fixed matrices; agreement of different algorithms for all inputs is a relation between modules that no test compares.", "anchors": ["src/cholesky.rs:51-198", "src/qr.rs:32-250", "src/eigh.rs:243-272"]}
{"id": "C80", "title": "The code at f32: order, diagonal matrices, thresholds, underflow", "statement": "With binary32 arithmetic (literals converted from f64): comparison is a total order on everything but NaN, so sort_eig sorts with the same permutation rule and panics exactly when a NaN is among at least two values; eigh of a diagonal matrix with finite entries never iterates, returns exactly the identity as eigenvectors and each diagonal entry divided and multiplied by one finite number; the LOBPCG threshold selected by the epsilon test is 1.0 at f32 and 1e-8 at f64. As at f64, tiny off-diagonal entries spoil the result (refuted accuracy: off-diagonal 4.6e-23 yields an eigenvalue above 2 of a matrix that is the identity up to 1e-22).", "quantifier": "all values, orders and matrices with at least as many columns as values; all sizes, fuels and finite diagonals, both zeros off the diagonal", "why_tests_cant": "The crate has three f32 tests, one small matrix each for eigvalsh, svd and cholesky, and none for sorting or LOBPCG; nothing is known at f32 about other sizes, NaN or tiny entries.", "anchors": ["src/eigh.rs:10-176, 276-330", "src/lobpcg/algorithm.rs:264-269", "src/householder.rs:9-93"]}
{"id": "C81", "title": "The direct solvers are odd in the right-hand side, bit for bit, and homogeneous over the reals", "statement": "If every entry of column j of b' is the corresponding entry of column j of b with the other sign (zeros of either sign, NaN with NaN), then solve_triangular (both orientations), solvec, least_squares, QR solve and QR solve_tr, called with b and with b', fail with the same error or return solutions whose columns j have the same entries with the other sign, with no rounding difference at all; this holds in binary64 and in binary32, through overflow, underflow and NaN. Over the reals the same holds with any factor c in place of -1, c = 0 included. For other factors it fails in binary64.", "quantifier": "all matrices a, all right-hand sides b and b' of any number of columns, all shapes, all floating-point values including infinities and NaN, all columns j, all real factors c", "why_tests_cant": "the repository's tests never solve twice with related right-hand sides; a sign-dependent branch or a comparison of a right-hand side entry would show only for particular values", "anchors": ["src/triangular.rs: solve_triangular_system_common, SolveTriangular*", "src/cholesky.rs: solvec_inplace, invc_inplace", "src/qr.rs: qt_mul, solve_into, solve_tr_into, inverse, least_squares_into", "src/householder.rs: reflect_cols"]}
{"id": "C82", "title": "Factors and solutions of a leading or trailing block are blocks of the factors and solutions, bit for bit", "statement": "If cholesky succeeds on a, it succeeds on every leading k by k block of a and returns the leading block of the factor; a leading block refused as not positive definite makes a refused. The solution of the leading k rows of a lower triangular system, and of the trailing k rows of an upper triangular one, is that part of the solution of the whole system. QR of the first k columns returns the first k columns of Q and the leading k by k block of R. All entries are equal as scalars, in binary64 with no rounding difference. The leading rows of an upper triangular system do not have this property.", "quantifier": "all scalar types of the model (reals, binary64, binary32), all matrices and right-hand sides of all shapes, all k, NaN and infinities included", "why_tests_cant": "the tests factor a handful of matrices once each; that later rows and columns never influence earlier results is a statement about pairs of runs on inputs of different size", "anchors": ["src/cholesky.rs: cholesky_inplace_dirty, cholesky", "src/triangular.rs: solve_triangular_system_common, SolveTriangular*", "src/qr.rs: qr_into, generate_q, into_r, into_decomp", "src/householder.rs: clear_column, assemble_q"]}
{"id": "C83", "title": "Algebra of the computed inverses", "statement": "In exact arithmetic: the QR inverse of the QR inverse of a is a; QR solve is multiplication by the QR inverse; the inverse of the transpose is the transpose of the inverse; the inverse of a product is the product of the inverses in the other order, and exists. For symmetric a accepted by invc, invc(a) is symmetric and positive definite, invc accepts it and returns a, and solvec is multiplication by invc(a). In binary64 invc([[2,1],[1,2]]) is not symmetric.", "quantifier": "all real square matrices of all sizes on which the calls succeed, all right-hand sides", "why_tests_cant": "the tests compare a few inverses with expected values up to 1e-5 and cannot state identities between results of different calls for all matrices", "anchors": ["src/cholesky.rs: invc_inplace, solvec_inplace", "src/qr.rs: inverse, solve_into, qr_into"]}
{"id": "C84", "title": "Least squares under changes of rows, columns and right-hand side", "statement": "In exact arithmetic, for a with at least as many rows as columns on which least_squares succeeds: multiplying a and b by a matrix with orthonormal columns (rotation, permutation of the equations, additional zero equations) leaves the solution unchanged; replacing a by a T with invertible T turns the solution x into the inverse of T times x; adding a w to b adds w to the solution; b = a w is solved exactly by w. In binary64 the order of the equations changes the result and a consistent system is not always solved exactly.", "quantifier": "all real matrices a with nr >= nc of full column rank, all right-hand sides with any number of columns, all U, T, w", "why_tests_cant": "the tests solve a few fixed systems; invariance relates the results of different calls for all transformations", "anchors": ["src/qr.rs: least_squares_into, solve_into, qt_mul, qr_into"]}
{"id": "C85", "title": "Diagonal scaling of rows and columns (equilibration)", "statement": "In exact arithmetic, scaling the rows and columns of the matrix by nonzero factors changes the results of the direct solvers exactly as it should. For symmetric a and D = diag(d): cholesky accepts D a D exactly when it accepts a, and its factor is D l S with S the signs of d; invc divides entry (i,j) by d_i d_j; solvec with right-hand side D b divides row i of the solution by d_i. For diag(d) a diag(e): solve_triangular with right-hand side diag(d) b divides row i of the solution by e_i, and the QR inverse exists and has entry (i,j) divided by e_i d_j. In binary64 this fails already for a 1x1 matrix and the factor 3.", "quantifier": "all real matrices of any size, all right-hand sides, all nonzero scalings, also negative ones; both triangles", "why_tests_cant": "the tests factor a few fixed matrices; this relates the results of two calls for all scalings, including which matrices are rejected", "anchors": ["src/cholesky.rs: cholesky_inplace_dirty, solvec_into, invc_inplace", "src/triangular.rs: solve_triangular_into", "src/qr.rs: inverse, qr_into"]}
{"id": "C86", "title": "Computed spectra of nearby and of orthogonally equivalent matrices agree", "statement": "In exact arithmetic, where eigvalsh and svd stop at a tolerance: if both calls return, the sorted eigenvalues of two symmetric matrices a and b differ position by position by at most the Frobenius norm of Q a Q^T - b, for every orthogonal Q, plus the two tolerances (n-1) 2 eps (|a| + |b|). The sorted singular values of two matrices of any shape differ by at most the norm of Q a W^T - b, for all orthogonal Q and W, plus (d-1) 10 eps (|a| + |b|), whatever vectors are requested. Perturbing the input by E moves no sorted value by more than |E| plus the tolerances; reordering rows and columns moves none by more than the tolerances.", "quantifier": "all real matrices of any size, all orthogonal Q and W, all fuels with which the calls return, both orders, all output flags", "why_tests_cant": "the tests compute spectra of fixed matrices; continuity and invariance relate any two calls", "anchors": ["src/eigh.rs: symmetric_eig, sort_eig", "src/svd.rs: svd, sort_svd"]}
