# Formal model of rust-ml/linfa-linalg in Rocq (Coq 8.16.1)

## 1. Approach

* The model (`rocq/theories/Scalar.v`, `Arr.v`, `M*.v`) is executable Gallina, written function by
  function from `/repo/src`, and *generic in the scalar*: every definition takes a record `Num`
  (`Scalar.v`) of the operations of `NdFloat` the crate uses. Each definition carries a comment citing
  the file and lines it models and any simplification.
* The same code is instantiated (`Inst.v`) at
  - `RN`: exact real arithmetic (Coq `R`), for the mathematical theorems;
  - `FN`: IEEE 754 binary64 with round to nearest even, computed by the standard library's executable
    specification `SpecFloat` (not primitive floats: no axioms), for witnesses of refutations, for
    examples, and for the theorems about binary64 (C23, C28, C43-C46, C52, C54-C72, C75, C78);
  - `FN32` (`Inst32.v`): the same at binary32 (C80);
  - `FNh h` (`SpecH.v`): `FN` with an arbitrary function `h` for `Float::hypot`, the one operation whose
    result IEEE 754 does not determine. C62-C65 hold for every `h` within one ulp; `FNh f_hypot = FN`;
  - an arbitrary `Num`, for structural theorems (shapes, frame conditions, memory safety, error
    classification, flag independence, iterator histories). These hold for every floating point
    semantics, NaN and infinities included.
* Validation of the model: `Tests.v` and `TestsLobpcg.v` run the crate's own unit tests on the binary64
  instance, with the inputs, expected values and tolerances of the Rust source, and all pass: every
  `#[test]` of `src/*.rs` (40) and 6 of the 11 of `src/lobpcg` (started from the generator
  Xoshiro256Plus with the seeds of the tests; two more pass but take `coqchk` too long and are not kept, three are
  too large to evaluate in Coq: 50 x 50, 50 x 10 and 1000 x 500). Several of these check results to within 2^-52, or in the order in which the code finds them.
  `tests/*.rs` draws random matrices with proptest; its properties are covered by theorems.
* A computation returns `res A`: `Ret a | Err e | Panicked | OutOfBounds | OutOfFuel`. `Err` carries the
  `LinalgError`. Accesses through `src/index.rs` (`at`, `atm`) out of range give `OutOfBounds` (undefined
  behaviour in release builds). `usize` underflow, bad slices, shape mismatches inside ndarray operators
  and failed `unwrap`s give `Panicked`. `while` loops run on fuel. A theorem that excludes the other
  outcomes therefore proves absence of undefined behaviour and of panics.
* In-place mutation becomes returning the new value. A mutable view becomes read slice / compute / write
  back. A function that fails after a partial in-place update returns the updated matrix too
  (`cholesky_inplace_dirty`, C07).
* Proofs are compositional: `Hoare.v` has a small program logic (`post m Q E F`: postcondition on return,
  condition on errors, condition on fuel exhaustion; never a panic nor an out-of-bounds access) and
  `PLob.v` its partial-correctness version `weak`.
* Property statements are in `Properties_*.v`, phrased with the independent vocabulary of `Spec.v`
  (entries, sums, products of functions `nat -> nat -> R`, orthogonality, positive definiteness,
  Frobenius norm, sortedness, chunks of an iteration). Beside each group of theorems there are
  `Example`s: the hypotheses are met (`..._nonvacuous`) and concrete binary64 runs (`..._run`).
* A property that is false of the code has its full statement (`Cxx_statement` or in the comment), a
  theorem `..._refuted` with a computed witness, and the strongest true part as `..._partial`.

## 2. Files

| file | contents |
|------|----------|
| Scalar.v | `Num`, outcomes, loops |
| Arr.v | arrays: get/set, slices, transpose, dot, gemm, select, `check_square`, `at`/`atm` (src/index.rs, src/lib.rs) |
| MBase.v | norm.rs, reflection.rs, householder.rs, givens.rs |
| MDirect.v | triangular.rs, cholesky.rs, qr.rs |
| MDecomp.v | tridiagonal.rs, bidiagonal.rs |
| MEigh.v | eigh.rs (with sorting) |
| MSvd.v | svd.rs (with sorting) |
| MLobpcg.v | lobpcg/algorithm.rs, lobpcg/eig.rs, lobpcg/svd.rs, lobpcg/mod.rs |
| Inst.v, Ex.v | the instances RN and FN; helpers for concrete matrices |
| Tests.v, TestsLobpcg.v | the unit tests of the crate, run on the model |
| Spec.v, SpecF.v, SpecL.v | specification vocabulary; SpecF.v: values, validity and unit roundoff of binary64; SpecL.v: the LOBPCG iteration |
| PRound.v | rounding-error algebra; bridge from `SpecFloat` to Flocq's correctness theorems |
| Hoare.v, RLin.v | program logic; real linear algebra on entry functions |
| P*.v | proofs about each part of the model |
| Properties_*.v | the theorems, one file per area |

## 3. Properties

| id | statement proved about | method |
|----|------------------------|--------|
| C01, C02 | triangular.rs, every scalar type | loop invariants on entries |
| C03 | `solve_triangular`, exact | invariant of the substitution; uniqueness by induction on rows; the other triangle is never read (every scalar type) |
| C04 | error classification and safety, every scalar type | case analysis, loop safety |
| C05-C07 | `cholesky*` | column invariant; positive definite iff all pivots positive (completion of squares); uniqueness; frame invariant for every scalar type |
| C08, C09 | `solvec`, `invc` | composition of C03, C05, C06 |
| C10-C15 | qr.rs | product of signed Householder reflections, invariant Q^T A = R; normal equations; minimum norm; error classes for every scalar type |
| C16 | reflection.rs | algebra; involution, isometry |
| C17, C18 | tridiagonal.rs, bidiagonal.rs | orthogonal similarity / two sided orthogonal invariant |
| C19, C20, C21 | eigh.rs in exact arithmetic with the tolerance eps > 0 of the code | invariant A = Q T Q^T + E over the fuelled loop, with an error budget of one deflation per row |
| C22 | every scalar type | the run without eigenvectors is the projection of the run with |
| C23 | binary64 and exact | safety invariant start <= end < n; the 2x2 discriminant is never negative and not NaN |
| C24-C27 | svd.rs | as for eigh, two sided; C26 for every scalar type |
| C28, C29 | sorting, every ordered scalar type with NaNs | stable insertion sort, panicking comparator; uniqueness of stable sorts |
| C30 | norm.rs | sums, Cauchy-Schwarz |
| C31-C36, C41, C42 | lobpcg/algorithm.rs | loop invariants AX = A X, AP = A P, honest residuals, best result, ordering; call counting by a query list |
| C37, C38 | lobpcg/eig.rs | invariants over arbitrary histories of `next()` |
| C39, C40 | lobpcg/svd.rs | sort, cutoff filter, alignment; exact SVD when the eigenpairs are exact |
| C43-C46 | triangular.rs, cholesky.rs, norm.rs in binary64 | componentwise backward error analysis with underflow terms; bit-exact recurrences for every scalar type |
| C47-C49 | lobpcg/algorithm.rs, exact | simulation of the textbook iteration of `SpecL.v`; congruence to the whitened problem; Courant-Fischer by a dimension count |
| C50 | eigh.rs main loop, exact | each sweep is one shifted QR step (its first column determines it); Wilkinson's shift halves (b1^2 b2)^2; a sweep that does not deflate has b1 bounded below |
| C51 | svd.rs main loop, exact | a sweep on B is a shifted QR step on the Gram matrix, whose off-diagonal is d_j o_j; the potential of C50 halves; the two cancellation chases preserve the products |
| C52 | svd.rs, binary64 | NaN is absorbing: bidiagonalisation spreads it to every entry and the all-NaN state is a fixpoint of the loop |
| C53 | lobpcg/svd.rs, lobpcg/eig.rs | the wrappers are unfolded to one lobpcg run with the Gram operator; its honest residuals (C32) are transported through the sqrt/normalisation of values_vectors |
| C54 | householder.rs, qr.rs, binary64 | rounding-error analysis of one reflection (axis, application), accumulated over the columns: reflectors built from exactly unit axes W near the stored ones give the exact orthogonal Q |
| C55 | qr.rs solve_into, inverse, least_squares, binary64 | Q^T b through the float reflections is exactly Q^T b~ for the exact Q of C54; back substitution is backward stable (C43); rows of the triangular perturbation are moved into A |
| C56 | qr.rs solve_tr_into, binary64 | forward substitution on R^T gives A~; the explicit Q of generate_q is within e of the exact one, so x is near Q R~^-T b~, the exact minimum-norm solution |
| C57 | cholesky.rs, binary64 | induction over rows and columns: the row computed so far, with the exact quotient in place of the rounded one, is a row of a factor of A + dA, so its norm is below sqrt a_jj (Schur complement); hence no overflow and a pivot of at least 3e a_jj |
| C58 | householder.rs through eigh.rs and svd.rs, binary64 | one execution of the model on each witness by vm_compute; the bounds on the true values are elementary algebra over the reals |
| C59 | tridiagonal.rs and householder.rs assemble_q, binary64 | forward analysis of one two-sided step (axis, p = 2Bv, three rank-one updates of the block) in Frobenius norm with the loss of symmetry as a second tracked quantity; two-sided accumulation over the steps; assemble_q with any shift |
| C60 | bidiagonal.rs and householder.rs, binary64 | one reflection on entry functions, so that clear_row is clear_column on the transposed entries and the wide case is the tall case transposed; forward bounds exclude overflow; left and right steps accumulated in Frobenius norm; assemble_q with shift 0 and 1 |
| C61 | eigh.rs two by two case, binary64 | one execution of the model by vm_compute; the lower bound for every lam is Cauchy-Schwarz over the reals |
| C62 | eigh.rs values (symmetric_eig with and without vectors), tridiagonal.rs, givens.rs cancel_y, binary64 with any accurate hypot | every step of the sweep, deflation and two by two case is an exact orthogonal similarity up to 320 u m in Frobenius norm, or produces a NaN on the diagonal that stays there; entries stay bounded because the matrix stays near the input; a run with a guarded hypot that has no NaN equals the unguarded run |
| C63 | eigh.rs vectors (symmetric_eig with vectors), givens.rs try_new and rotate_rows, tridiagonal.rs generate_q, binary64 with any accurate hypot | the generated q is near an orthogonal matrix (C59); a rotation whose computed cosine and sine are within a few ulps of an exact rotation moves it by at most 90 u; the guarded run equals the unguarded one also in q |
| C64 | svd.rs without vectors (svd, delimit_subproblem, both zero chases, compute_2x2_uptrig_svd), bidiagonal.rs, givens.rs cancel_x/cancel_y, binary64 with any accurate hypot | the values-only run is shown equal to a pure function on two vectors; every step is an exact two-sided orthogonal transformation up to 600 u m in Frobenius norm, or leaves a non-finite number on the diagonal that stays there; a guarded run whose values are finite equals the unguarded run |
| C65 | eigh.rs and svd.rs values followed by sorting, exact arithmetic and binary64 | Weyl's inequality by dimension counting: k homogeneous equations in k+1 unknowns have a nonzero solution; C20, C24, C62, C64 give the nearby matrix, C28, C29 the permutation |
| C66 | triangular.rs solve, cholesky.rs solvec, qr.rs solve, inverse, least_squares, binary64 | x - x* is the inverse applied to the residual, bounded by C43, C45, C55; the trace bounds L L^T; for least squares the normal equations of both problems |
| C67 | qr.rs is_invertible, solve, solve_tr, inverse, cholesky.rs solvec, invc, binary64 | a zero on the computed diagonal gives a vector killed by R, hence by a matrix within the bound of C54 of A; witness [[1,1],[1,1]] by computation |
| C68 | svd.rs with vectors, bidiagonal.rs generate_u and generate_vt, givens.rs, binary64 | `PSvdT.v` shows, for any instance, that u and vt are the generated matrices after a bounded number of rotations by values of try_new, cancel_x, cancel_y or compute_2x2_uptrig_svd and a sign fix; each of those is a rotation up to 3 units of roundoff in the last place |
| C69 | svd.rs, eigh.rs, scaling by the largest magnitude, binary64 | division of k x by k m rounds the same quotient, so both runs continue from the same matrix; only the last multiplication differs |
| C70 | svd.rs, bidiagonal.rs, householder.rs clear_row, any instance | the runs for A (upper) and its transpose (lower) in lock step: same diagonals, transposed factors; witness for square matrices by computation |
| C71 | all solvers and decompositions, NaN and infinities, binary64 | NaN absorbs every operation and fails every comparison; an invariant "some entry of the diagonal is NaN" through the reductions and both iterations (for svd: NaN or infinite, since hypot(NaN, inf) = inf) |
| C72 | givens.rs, exact arithmetic; cancel_y also in binary64 | direct computation with 2x2 matrices; quotients by a relatively accurate hypot |
| C73 | householder.rs, exact arithmetic | the lemmas behind C10, C17, C18, restated with an explicit mirror |
| C74 | eigh.rs compute_2x2_eigvals, svd.rs compute_2x2_uptrig_svd, exact arithmetic | completing the square; the lemma behind C24, as a matrix product |
| C75 | every scalar semantics | two runs in lock step; the exact recursions of PTriF and PHouse read one column only |
| C76 | eigh.rs, exact arithmetic | an invariant of the iteration that ignores the tolerance: P A P^T has the current diagonal and agrees with the current tridiagonal matrix on every run of nonzero off-diagonal entries |
| C77 | every scalar semantics | unfolding of decompose; induction on the draws; the flag is an invariant of the loop |
| C78 | eigh, triangular, cholesky; exact and binary64 | laws about zeros (two of them in binary64) that make every Householder step the identity; exact recursions of PTriF and PCholF |
| C79 | cholesky, qr, eigh; exact arithmetic | uniqueness of the factors and solutions (C06, C08, C12, C14) and the Rayleigh quotients of C76 |
| C80 | binary32 instance | the comparison functions do not depend on the precision; the laws about zeros of C78 hold for binary32 too; runs |
| C81 | triangular, cholesky, qr solvers; reals, binary64, binary32 | two runs in lock step with right-hand sides related entry by entry; the relation is kept by every operation whose other operand is common to both runs (`lin_ok`, PLin.v) |
| C82 | cholesky, solve_triangular, qr; any scalar type | two runs in lock step on the matrix and on its block; exact entry formulas of one step (`cleared`, `q_entry`, PNest.v); later steps leave earlier rows and columns alone |
| C83 | qr inverse, invc; exact arithmetic | one- and two-sided inverses are unique; C09, C12, C14 applied to the computed inverse |
| C84 | least_squares, at least as many rows as columns; exact arithmetic | the normal equations have one solution; the transformed solution satisfies the transformed normal equations |
| C85 | cholesky, invc, solvec, solve_triangular, qr inverse; exact arithmetic | the scaled factor satisfies the specification of the scaled problem (`scaled_mmul`); uniqueness from C03, C06, C08, C14 |
| C86 | eigvalsh, svd, sorting; exact arithmetic | C20 and C24 give exact factorisations of nearby matrices; Weyl's inequalities (PWeyl.v) between the two computed factorisations |

`MANIFEST.json` lists the theorems per property. C21, C27, C31, C35 and C40 are `partial`: their full
statement is false of the code (section 5).

## 4. Trusted base

* Coq's kernel (with its `vm_compute` reduction machine, used for the concrete examples and witnesses).
* The fidelity of the hand translation cited in each definition, and of the small model of ndarray in `Arr.v`.
* Flocq 4.1.0 is used as a library in PRound.v (correct rounding of `SpecFloat`'s operations); it adds no axiom.
* The axioms below, all from the standard library, as listed by `Print Assumptions` (every theorem is
  followed by that command in its file). No axiom, parameter, admitted proof, plugin, functor or module
  type is added.

* Axioms: none (closed under the global context). 112 theorems: C01_triangular_inplace, C01_into_triangular, C02_is_triangular, C02_into_triangular_is_triangular, C03_other_triangle_ignored, C04_solve_triangular_class, C06_not_square, C07_upper_triangle_preserved, C07_upper_triangle_ignored, C10_qr_class, C10_into_decomp_safe, C15_solve_class, C15_solve_tr_class, C15_inverse_class, C15_least_squares_class, C16_mismatch_panics, C17_into_diagonals, C17_errors, C18_into_diagonals, C18_errors, C21_refuted, C22_eigvalsh_eigh, C24_binary64_refuted, C25_flags_any, C25_binary64_refuted, C26_outcomes, C26_empty, C26_small_terminates, C27_binary64_refuted, C28_binary64_ordered, C28_sorts, C28_panics_iff_nan, C28_unique, C29_sorts, C29_panics_iff_nan, C30_max_nan_refuted, C30_l2_underflow_refuted, C31_refuted, C31_lobpcg_refuted, C33_trace, C33_best, C33_traced, C34_not_thin, C34_operator_calls, C34_call_counter, C35_refuted, C35_iterated_refuted, C35_ok_partial, C37_history, C37_exhausted, C37_step_size, C37_decompose, C38_next, C38_history, C39_shape, C40_refuted, C40_positive_partial, C41_empty_refuted, C41_dependent_refuted, C41_nan_refuted, C42_ordered, C43_operations, C52_hangs, C52_terminates_refuted, C54_overflow_refuted, C54_underflow_refuted, C55_least_squares, C56_least_squares_wide, C57_accepts_indefinite_refuted, C70_svd_transpose, C70_square_refuted, C71_solve_upper, C71_solve_lower, C71_cholesky, C71_solvec, C71_invc, C71_qr, C71_qr_solve, C71_inverse, C71_least_squares, C71_norms, C71_norm_max_refuted, C71_eigvalsh, C71_eigh, C71_svd, C75_common_column, C75_one_column, C75_inverse, C77_start_block, C77_preconditioner, C77_teig, C77_builders, C77_tsvd, C77_svd_builders, C77_explicit_gram, C79_binary64_refuted, C80_ordered, C80_sorts, C80_threshold, C80_underflow_refuted, C81_binary64, C81_binary32, C81_binary64_factor_refuted, C82_cholesky, C82_cholesky_fails, C82_forward, C82_backward, C82_qr, C82_backward_leading_refuted, C83_binary64_symmetric_refuted, C84_binary64_order_refuted, C85_binary64_refuted.
* Axioms: `Classical_Prop.classic`. 4 theorems: C23_eigh_float, C23_eigvalsh_float, C23_small_terminates, C80_diagonal.
* Axioms: `ClassicalDedekindReals.sig_forall_dec`, `FunctionalExtensionality.functional_extensionality_dep`. 12 theorems: C16_mirror_geometry, C43_gam, C54_constants, C58_eigvalsh_refuted, C58_svd_refuted, C59_constants, C60_constants, C61_eigenvectors_refuted, C62_constants, C64_constants, C67_rejects_singular_refuted, C78_solve_triangular.
* Axioms: `ClassicalDedekindReals.sig_forall_dec`, `ClassicalDedekindReals.sig_not_dec`, `FunctionalExtensionality.functional_extensionality_dep`. 89 theorems: C03_solve_triangular, C05_cholesky_factor, C05_cholesky_lower_only, C06_cholesky_iff_posdef, C06_cholesky_unique, C08_solvec, C09_invc, C10_qr_factorises, C10_qr_unique, C11_is_invertible, C12_qr_least_squares, C13_qr_solve_tr, C13_least_squares_wide, C14_qr_inverse, C15_least_squares_rank, C16_reflect_cols, C16_reflect_rows, C16_reflect_twice, C16_reflect_rows_twice, C16_reflect_orthogonal, C17_tridiagonal, C18_bidiagonal, C24_reproduces, C24_tolerance, C24_exact, C27_refuted, C27_always_refuted, C27_identity_partial, C28_real_ordered, C29_product, C30_definitions, C30_homogeneous, C30_triangle, C30_definite, C30_chain, C31_iff_orthonormal, C33_exact, C36_orthonormal, C36_iff, C39_values, C39_vectors, C39_exact_svd, C50_wilkinson_shift, C50_sweep, C50_eigh_terminates, C50_terminates, C51_sweep, C62_values, C63_columns, C63_constants, C64_pairs, C65_weyl_eigenvalues, C65_weyl_singular_values, C68_inner_products, C68_constants, C70_svd_transpose_exact, C72_cancel_y, C72_cancel_x, C72_new, C72_try_new, C72_inverse, C72_rotate_rows, C72_rotate_cols, C73_reflection_axis, C73_clear_column, C73_clear_row, C73_assemble_q, C74_eigvals, C74_uptrig_svd, C76_binary64_psd_refuted, C79_cholesky_qr, C79_normal_equations, C79_positive_definite, C81_exact, C83_qr_involution, C83_qr_solve, C83_qr_transpose, C83_qr_product, C83_invc, C83_solvec, C84_rows, C84_columns, C84_shift, C84_consistent, C85_cholesky, C85_invc, C85_solvec, C85_triangular, C85_qr_inverse.
* Axioms: `ClassicalDedekindReals.sig_forall_dec`, `ClassicalDedekindReals.sig_not_dec`, `Classical_Prop.classic`, `FunctionalExtensionality.functional_extensionality_dep`. 85 theorems: C19_orthogonal, C20_backward_stable, C20_eigvalsh, C21_pairs_partial, C21_exact_partial, C23_eigh_real, C23_eigvalsh_real, C25_flags, C31_orthonormal_partial, C32_honest, C41_no_panic, C43_solve_triangular_backward_stable, C44_cholesky_backward_stable, C45_solvec_backward_stable, C45_invc_backward_stable, C46_norm_max_exact, C46_norm_l1_error, C46_norm_l2_error, C47_rayleigh_ritz, C47_fuel, C48_generalized, C48_sorted, C48_iterate, C49_monotone, C49_bounded, C51_svd_terminates, C51_total, C53_tsvd_run, C53_tsvd_outcomes, C53_triplets, C53_teig, C53_next, C54_qr_backward_stable, C54_qr_residual, C54_q_orthonormal, C55_qr_solve_backward_stable, C55_inverse_backward_stable, C56_qr_solve_tr_stable, C57_accepts_positive_definite, C57_rejects_indefinite, C59_tridiagonal_backward_stable, C59_tridiagonal_residual, C59_eigenpairs, C60_bidiagonal_backward_stable, C60_bidiagonal_residual, C60_singular_triples, C62_eigvalsh_backward_stable, C62_binary64, C63_eigh_orthogonal, C63_binary64, C64_svd_values_backward_stable, C64_binary64, C65_eigvalsh_binary64, C65_svd_binary64, C65_eigvalsh_exact, C65_svd_exact, C66_solve_triangular_forward, C66_solvec_forward, C66_qr_solve_forward, C66_qr_inverse_forward, C66_least_squares_forward, C67_qr_accepts, C67_solvec_accepts, C67_singular_is_huge, C68_svd_vectors_orthonormal, C68_accurate_hypot, C68_binary64, C69_svd_scaling, C69_svd_same_outcome, C69_eigh_scaling, C69_values, C69_power_of_two, C72_cancel_y_binary64, C76_rayleigh, C76_trace, C76_range, C76_squares, C78_eigh_exact, C78_eigh_binary64, C78_error, C78_binary64_exact_refuted, C78_cholesky, C79_cholesky_eigvalsh, C86_eigvalsh, C86_svd.

### Modelled
Every function of `/repo/src` outside `#[cfg(test)]`: triangular.rs, cholesky.rs, qr.rs, reflection.rs,
householder.rs, givens.rs, tridiagonal.rs, bidiagonal.rs, eigh.rs, svd.rs, norm.rs, index.rs, lib.rs
(`check_square`, errors, `Order`), lobpcg/*.rs. The owning, borrowing and in-place variants of an
operation are one definition when they only differ in who owns the memory (the comments name all of them).

### Not modelled, or simplified
* f32: `Inst32.v` instantiates the code at binary32 (literals rounded from f64, `hypot` correctly rounded). Only C80 and the
  theorems for every scalar semantics apply to it; the error bounds (C43-C46, C54-C68) are proved for binary64 only.
  The three f32 tests of tests/*.rs run on it (Properties_Single.v).
  `max_rnorm_float` is computed from `nepsilon`, as in the source; `MagnitudeCorrection` is a parameter.
* `hypot` of `FN` is correctly rounded (libm: within one ulp). Sums (`dot`, `sum`) are evaluated left to
  right; ndarray unrolls them, so binary64 results may differ in the last bits. No theorem about an
  arbitrary `Num` depends on it; the binary64 error bounds (C43-C46) are about loops the crate
  writes out itself (or `Iterator::sum`, which is sequential), so they do not depend on it. C54-C56 are about
  the model's order; its analysis (`PHouseF.dot_prd`) only counts roundings per term, at most the length of
  the vector, which any other order of summation also meets.
* Fused multiply-add is not modelled: rustc does not contract `a * b + c`. `general_mat_mul` (the rank-one
  updates of tridiagonal.rs) is m + al*(x*y) with each operation rounded; ndarray's backend may fuse or
  reorder these, which saves roundings. C59 is about the model's order.
* Memory layout, strides, allocation, ownership, the `Data`/`DataMut` traits, `Clone` impls.
* `usize` overflow of sums and products (dimensions are unbounded naturals).
* ndarray broadcasting of unit axes in operators between matrices of different shapes is a panic in the
  model; the crate only combines equal shapes.
* Rust's `sort_by` is modelled by insertion sort; C28_unique shows that all stable sorts agree.
* The random generator of `TruncatedEig`/`TruncatedSvd` is an arbitrary state machine `draw`.
* The `precision` of `TruncatedEig`/`TruncatedSvd` (and `tol` of `lobpcg`) is an `f32` that the code converts to the
  scalar type; in the model it is a scalar from the start, so 1e-5 and the squared precision of `TruncatedSvd` are
  not rounded to single precision first.
* User closures of `lobpcg` are arbitrary functions `mat -> res mat` (they may panic), assumed pure.
* Unbounded loops (eigh, svd) run on fuel: the theorems speak of every run that finishes; termination is
  proved in exact arithmetic for svd on every nonempty matrix (C51) and for eigh on matrices whose smallest
  singular value exceeds the deflation perturbation (C50), and in every arithmetic for dimension at most two
  (C23, C26). Open: eigh on nearly singular matrices, finite binary64 inputs of larger dimension. On a NaN or
  infinity in the first column svd in binary64 does not terminate (C52).
* `LinalgError::Shape` is never produced by the crate's code and is omitted.

## 5. Findings: statements that are false of the code

| theorem | what happens |
|---------|--------------|
| C21_refuted | eigh's 2x2 step skips the rotation when it is below eps but still writes the eigenvalues in decreasing order: values and vectors can be swapped |
| C24_binary64_refuted | an svd run in binary64 whose product is far from the input: `compute_2x2_uptrig_svd` takes the right vector from v1^2 - m11^2, which is only rounding noise when m12 is small; the vectors are orthonormal all the same (C68) |
| C25_binary64_refuted | singular values that depend on the flags, in binary64 |
| C27_refuted, C27_always_refuted, C27_binary64_refuted | the sign normalisation multiplies the column of U by `-A::zero()` where `-A::one()` is needed: the column becomes zero |
| C30_max_nan_refuted, C30_l2_underflow_refuted | norm_max ignores NaN; norm_l2 of a tiny non-zero vector is 0 |
| C31_refuted, C31_lobpcg_refuted | apply_constraints does one of the two triangular solves needed: right iff Y is orthonormal (C31_iff_orthonormal) |
| C35_refuted, C35_iterated_refuted | at the iteration cap lobpcg returns Ok whatever the residual is |
| C40_refuted | values()/values_vectors() panic after decompose(0) with Order::Largest |
| C41_empty_refuted, C41_dependent_refuted, C41_nan_refuted | lobpcg panics on an empty start block, on dependent constraints, on NaN |
| C54_overflow_refuted, C54_underflow_refuted | QR does not scale its columns: for [2^511] the Householder factor overflows to infinity, the axis becomes 0 and finite factors with Q R = -A are returned; for entries near 2^-537 the squares are subnormal and the returned Q is far from orthogonal |
| C58_eigvalsh_refuted, C58_svd_refuted | the Householder axis squares its entries unscaled: with an off-diagonal entry near 2.7e-162 (about 4e-23 in f32) the square is subnormal, the axis is not a unit vector and the trailing block is scaled. eigvalsh of a matrix equal to the identity up to 1e-161 returns an eigenvalue above 2; svd of such a matrix a singular value above 1.4 |
| C61_eigenvectors_refuted | the two by two case of eigh takes (l1 - d1, o) as the first eigenvector. When d0 < d1 and o is just above the deflation threshold, l1 - d1 is pure rounding error of the size of o, so the rotation applied to the vectors is arbitrary: for [[-1, o], [o, fl(1/10)]], o = 5*2^-54, the first vector has residual at least 1/5 for every number. The values are right |
| C57_accepts_indefinite_refuted | cholesky returns Ok for a finite symmetric indefinite matrix: with a tiny first pivot (2^-1000) a row of the factor overflows, inf - inf is NaN, and `d <= 0` is false for NaN, so a factor containing NaN is returned instead of NotPositiveDefinite |
| C67_rejects_singular_refuted | is_invertible tests the computed diagonal of R for exact zeros, so in binary64 a singular matrix is usually accepted: for [[1,1],[1,1]] inverse returns Ok with entries near 6e15 instead of NonInvertible |
| C70_square_refuted | svd of a square matrix and of its transpose give different rounded singular values, e.g. [[1,2],[3,5]]: both are reduced to an upper bidiagonal matrix; for rectangular matrices they agree bit for bit (C70) |
| C71_norm_max_refuted | norm_max of a vector with a NaN is the maximum of the other elements (`f64::max` returns its other argument); norm_l1 and norm_l2 are NaN (C71) |
| C76_binary64_psd_refuted | `eigvalsh` of the positive semidefinite [[4, 10], [10, 25]] in binary64 returns a negative value (in exact arithmetic it cannot, C76_range) |
| C78_binary64_exact_refuted | the eigenvalues of diag(49, 1) in binary64 are not 49 and 1: the rescaling by the largest entry rounds twice (the eigenvectors are exact, C78_eigh_binary64) |
| C79_binary64_refuted | QR calls the Läuchli matrix (1, 1; e, 0; 0, e), e = 2^-30, invertible in binary64, Cholesky of its rounded Gram matrix fails (in exact arithmetic they agree, C79_cholesky_qr) |
| C80_underflow_refuted | at f32 `eigvalsh` of [[1, t], [t, 1]] with t = 4.6e-23 returns a value above 2 (C58 at single precision, where such entries are far less exotic) |
| C81_binary64_factor_refuted | `solve_triangular` of 5 x = 3 is not three times that of 5 x = 1 (one rounding apart), so the homogeneity of C81_exact does not carry over to a general factor in floating point |
| C82_backward_leading_refuted | the leading rows of an upper triangular system have another solution than the whole system (only its trailing rows nest) |
| C83_binary64_symmetric_refuted | `invc` of the symmetric matrix [[2, 1], [1, 2]] returns a matrix that is not symmetric (last bit of the off-diagonal entries), and its inverse is not the matrix |
| C84_binary64_order_refuted | `least_squares` of the two equations x = 3, 2 x = 1 depends on their order, and x = 1, 2 x = 2 is not solved by exactly 1 |
| C85_binary64_refuted | cholesky of [[2]] and [[18]] in binary64: the second factor is not three times the first, although 18 = 3*2*3 exactly |
| C52_terminates_refuted, C52_hangs | svd never returns when min(rows, cols) >= 3 and the first column (first row if wide) holds a NaN or an infinity: every deflation test `x <= y` is false on NaN and the loop has no iteration cap. eigh on the same input returns, because its test stops only when `x > y` |

Other observations made while modelling (covered by examples or comments): Cholesky of a matrix with NaN
entries returns Ok; QR of `[[1e-200]]` underflows and reports NonInvertible; `explicit_gram_flag` starts
true and is never reset, so the implicit-Gram branch is dead code; `best_result` with a NaN residual sum is
never replaced; lobpcg with k <= n < k + active columns always stops with NotPositiveDefinite after the
first iterate (C33_failed_run); TruncatedSvd with Order::Smallest and a zero eigenvalue divides 0 by 0.

## 6. Tests of the theorems against wrong programs

Each entry of `seeded/LOG.jsonl` is one edit of the model in a scratch copy, with the claim it breaks, the
lemma or theorem whose proof fails, the property theorems that depend on it, and what was tightened.

Edits that no property noticed at first, and what was done about them:

* `wilkinson_shift` with a sign forgotten changes only the speed of convergence: C50 pins the shift down.
* `ts_decompose` with the wrong Gram operator or an unsquared precision: C53_tsvd_run states the operator and the precision.
* `precond_fn` with the preconditioner transposed: C77_preconditioner. The rest of C77 (builder defaults, start block) was added with it, before edits of those were run.
* `vsum` replaced by a maximum: C33 used the model's own `vsum`; it now states the sum itself.

One edit in the log does not typecheck (noted there) and was repeated in another form.

