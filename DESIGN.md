# Formal model of qmat in Rocq (Coq 8.16.1)

## Approach

qmat is a numerical library: small functions that map lists of numbers to lists
and matrices of numbers, plus a thin layer of Python dispatch (registries,
caches, argument wrappers).  The model transcribes these functions one by one
into total, computable Gallina functions, and the properties of
`properties.jsonl` are proved about them for all inputs, without bounds.

* **Numbers.**  Arithmetic is exact, over an arbitrary field: `realFieldType`
  (ordered field) where the code compares numbers, `numFieldType`/`fieldType`
  where complex values are allowed.  Rounding is modelled for lagrange.py
  (Model/Rounded.v, C79-C81), the time-stepping sweeps (Model/RoundedSweeps.v, C83), solveDahlquist (Model/RoundedSolve.v, C84), solveDahlquistSDC (Model/RoundedSdc.v, C85; both composed with inexact coefficients in C86, and with the discretization error in C87 and C88) and the
  storage of the Butcher tables (Spec/StoredSpec.v, C82) only: a second transcription where each operation is
  followed by an arbitrary rounding with relative error at most u, and sums and
  products are taken in an arbitrary order; Base/Float64.v shows that round to
  nearest even with 53 bits is such a rounding.
  The IEEE special values that the code exploits on purpose (division by zero
  in the barycentric formulas, in CHEBFUN weights, in LDU pivots, in
  numericalOrder) are modelled by `ext F = Fin x | PInf | NInf | NaN`, with one
  (unsigned) zero.  Two concrete fields: canonical binary rationals `Qc` (used
  for witnesses by `vm_compute`) and the real numbers `R` of the standard
  library (used for the Fejer rule, logarithms and exponentials).
* **Arrays** are lists `seq F`, `seq (seq F)`; sums are computable folds.
* **Exceptions** are values: `outcome A = Ok a | Raise e`.
* **External numerical routines.**  `np.linalg.solve` is an executable Gaussian
  elimination (proved sound and complete); `scipy.linalg.lu` an executable
  elimination with partial pivoting; `np.fft.ifft` its defining sum.
  `eigh_tridiagonal`, `leggauss`, `roots_legendre`, `argsort`, `%` between
  floats, log/exp/sqrt and the `scipy.optimize` calls are parameters; their
  documented contract is a premise of the theorems that need it, and concrete
  instances of the premises are given next to the theorems.  C66 proves that
  the contracts of the eigenvalue and quadrature routines can be met over the
  real numbers (and any real closed field), so that they are not contradictory.
* **Numerical bounds** (C68) are certified by interval arithmetic on integers
  (Base/IntvZ.v, Base/IntvMx.v), executable and proved sound.
* **The exact solution.**  C76 and C77 compare with the complex exponential, defined from
  exp, cos and sin of the standard library; its functional equation and its Taylor
  remainder are proved (Base/ExpTaylor.v, Proofs/CExpP.v).
* **Mutable state** (caches, registries, aliasing of arrays) is an explicit
  heap or dictionary threaded through the calls.

## Layout of rocq/theories

* `Base/` field instances and list/matrix/polynomial lemmas (no qmat content)
* `Model/` transcription of the Python functions, with file and line citations, no proofs
* `Spec/` vocabulary used to state the properties, independent of the model helpers
* `Proofs/` lemmas
* `Properties/` theorems `Cnn_...`, each followed by `Print Assumptions`, and
  `Example`s that show the hypotheses are met by concrete non-trivial cases

A property that the code does not satisfy as one would expect is stated as what
is true of the code; the expected form is then refuted with a witness in a
theorem `..._refuted`.

## Trusted base

* The Coq 8.16.1 kernel, including its `vm_compute` machine.  No flag is
  changed, no axiom is declared, nothing is admitted.  The proofs also pass
  `coqchk`, which re-evaluates the `vm_compute` steps lazily.
* mathcomp (with its real-closed fields and complex numbers), algebra-tactics,
  mczify and Flocq (definition of rounding, Base/Float64.v), checked by the same kernel.  They add
  no axiom (`coqchk` lists some opaque constants of mathcomp modules that are
  sealed by module types; `Print Assumptions` shows that no theorem depends on
  an unproved one).
* The axioms of Coq's standard library listed under "Assumptions".
* The transcription of the Python code into Gallina, made by reading.  Nothing
  of /repo is built or executed.  Every definition cites file and lines.
* The contracts of the external routines named above, where a theorem has them
  as premises.

## Code that is modelled

| file of /repo | lines | model |
|---|---|---|
| qmat/lagrange.py | 33-84 computeFejerRule | Model/Fejer.v |
| qmat/lagrange.py | 87-537 LagrangeApproximation | Model/Lagrange.v |
| qmat/lagrange.py | 164-251, 335-354, 421-438, 501-526, in rounded arithmetic | Model/Rounded.v |
| qmat/lagrange.py | 540-598 getSparseInterpolationMatrix | Model/Sparse.v |
| qmat/nodes.py | 19-221 | Model/Nodes.v |
| qmat/qcoeff/__init__.py | 22-270 | Model/QGen.v, Model/Butcher.v, Model/Cache.v (returned arrays) |
| qmat/qcoeff/__init__.py | 137-178 solveDahlquist, in rounded arithmetic | Model/RoundedSolve.v |
| qmat/utils/sdc.py | 9-96 solveDahlquistSDC without monitors, in rounded arithmetic | Model/RoundedSdc.v |
| qmat/qcoeff/collocation.py | 47-111 | Model/Collocation.v |
| qmat/qcoeff/butcher.py | 22-122 and all declared tables | Model/Butcher.v |
| qmat/qdelta/__init__.py | 64-312 | Model/Cache.v, Model/Gen.v, Model/Sweeps.v |
| qmat/qdelta/timestepping.py | 39-161 | Model/Sweeps.v |
| qmat/qdelta/timestepping.py | 39-133, in rounded arithmetic | Model/RoundedSweeps.v |
| qmat/qdelta/algebraic.py | 26-84 | Model/Sweeps.v |
| qmat/qdelta/diag.py | 30-350 | Model/Sweeps.v, Model/Cache.v (memo of MIN-SR-FLEX), Model/MinCoeffs.v (MIN, FromTable, registerTable, MIN3, MIN_VDHS) |
| qmat/qdelta/mincoeffs.py | 1-145, all tables | Model/MinCoeffs.v |
| qmat/utils/__init__.py | 17-107 | Model/Registry.v, Model/Register.v (checkOverriding, checkGenericConstr and the register decorators of qcoeff, butcher.py and qdelta) |
| class definitions of qcoeff and qdelta | names, bases, aliases, signatures, shapes | Model/Shipped.v |
| qmat/utils/num.py | all | Model/NumUtil.v, Model/Sweeps.v (lduFactorization) |
| qmat/utils/sdc.py | all | Model/Sdc.v |

Simplifications, also stated at the definitions: arrays have the documented
number of dimensions and finite entries; a sparse matrix is the dense matrix it
stands for; in Cache.v and Gen.v the contents of arrays are abstract; the tables
of butcher.py and mincoeffs.py are transcribed as exact rationals (or in a field with the square
root that occurs), that is, decimal or `a/b` literals stand for the numbers
written, not for their nearest float64 (C82 then bounds the effect of storing them rounded).

## What is not modelled

* float64 rounding outside lagrange.py, timestepping.py, solveDahlquist, solveDahlquistSDC and the stored Butcher tables, overflow, underflow, signed zero, warnings; dtype conversions other
  than the integer-node case of TimeStepping (C37).
* the algorithms inside numpy and scipy (their contracts only); in particular
  the coefficients found by `scipy.optimize` for MIN and MIN-SR-S are whatever
  the optimiser returns.
* `importAll` (only the order of the imports is used), `Timer`, docstrings, plots, the class attributes used only by
  the test-suite (`CONV_TEST_NSTEPS`).
* the docs, webapp, playground and test directories of the repository.

## Findings

Behaviour of the code that differs from what its documentation or the tests
suggest; each is a theorem.

* C03: CHEBFUN weights of a single point are NaN (minimum of no differences).
* C12: rows of the sparse interpolation matrix are copied from an earlier row
  when the shifted stencils are merely `np.allclose` with atol 1e-8, so the
  matrix is wrong on fine grids or for stencils that agree to 8 digits.
* C13: out-points more than one period outside the grid, and grids that contain
  both ends of the period, give wrong rows.
* C12, C13: a negative `order` is not refused; the slice then counts from the end.
* C14: unsorted points get weights of the wrong sign; interpolation, integration
  and derivation are then wrong (and can have a pole, e.g. points 0, 2, 1 at
  t = 2/3).  The condition under which they are right is characterised.
* C28: the end point snapping of Collocation uses `np.allclose` with absolute
  tolerance: on small or far away intervals inner nodes are snapped.
* C29: `hCoeffs` of a Runge-Kutta class evaluates the interpolant at 1 whatever
  its interval; with the unsorted nodes of EDIRK43 it is wrong.
* C31: padding a scheme does not pad its embedded weights; the embedded Dahlquist
  solver then fails.
* C34: the nodes of RK53 are not the row sums of its matrix.
* C35: RK32 declares order 3 but has order 2 on general problems, ARK343ERK
  declares 4 but has 3, and ARK548L2SAESDIRK declares embedded order 5 but has 4.
* C37: integer nodes make TimeStepping truncate its increments.
* C38, C64: BEPAR and TRAPAR ignore tLeft; sweeps extracted from a collocation
  object on [a,b] are consistent only if a = 0; MIN-SR sweeps refer to [0,1].
* C39: SOE with its dTau is never consistent for a positive first node.
* C40: MIN-SR-NS is nilpotent only for intervals that start at 0.
* C44: LDU of a matrix with a zero first row (left end point is a node) is NaN.
* C45: LU is nilpotent only if no row exchange happens in the factorization.
* C48: genCoeffs returns the class attributes of Runge-Kutta tables themselves,
  and getQDelta(copy=False) the cached array; a caller can corrupt both.
* C50: genQDeltaCoeffs extends the caller's own list of sweep names when nSweeps
  is larger, so that a second call with the same list can fail.
* C51: useQGen drops surplus positional arguments silently and lets a keyword
  override a positional argument of the same name.
* C53: a failed registration leaves a partial entry; subclasses without aliases
  of their own inherit those of the parent class, and fail to register.
* C57, C60, C65: getOrderSDC over-claims for some combinations (ten on
  equidistant nodes are proved to be one too high), is not monotone in the number
  of sweeps and can exceed 2k+1 after k sweeps.

* C69: errorDahlquist accepts a given solution with a single value and compares it
  with all times (broadcasting) instead of rejecting its length.
* C71: RADAU-LEFT collocation (LEGENDRE nodes) amplifies every oscillating mode
  (|R| > 1 on the whole imaginary axis but 0), unlike the other three types.

* C29: RK.hCoeffs catches an AssertionError that LagrangeApproximation never raises; the
  fallback value is dead code.
* C72: `checkOverriding` compares with `mro()[-2]`, so that a valid generator with
  a mixin listed after QGenerator is rejected with AttributeError; a subclass of
  a k-dependent sweep is k-dependent whatever its own computeQDelta; the test
  `cls.order is not None` of checkAndStore never fails, so that a table without
  order is stored in RK_SCHEMES before it is rejected; embedded weights are not
  checked; a one-stage table without nodes `c` is accepted (its node is nan).
* C82: ARK548L2SAERK has order conditions whose terms add up to about 5e5, so that rounding its
  coefficients to float64 alone leaves residuals that are only certain to be below 1e-9.

## Mutation testing

`seeded/LOG.jsonl` records edits to the model that imitate realistic bugs, with
the claims they break and the lemmas and theorems that then fail to compile.

## Assumptions

`Print Assumptions` follows every property theorem. 307 of the 344 theorems are
"Closed under the global context"; the others use only these axioms of the Coq
standard library:

* `ClassicalDedekindReals.sig_forall_dec`
* `ClassicalDedekindReals.sig_not_dec`
* `ClassicalEpsilon.constructive_indefinite_description`
* `Classical_Prop.classic`
* `FunctionalExtensionality.functional_extensionality_dep`

They are: `C67_closed_forms`, `C67_fejer_nodes`, `C67_real`, `C76_convergence`, `C76_registered`, `C76_collocation`, `C76_sdc`, `C77_leading_term`, `C77_rk_rate`, `C77_sdc_rate`, `C77_equid_quadrature`, `C77_equid_last`, `C07_exact`, `C07_nodes`, `C07_weights`, `C07_no_points`, `C07_meets_contract`, `C07_lagrange_integration`, `C68_real`, `C66_nodes_ok`, `C66_rules_ok`, `C66_collocation`, `C79_float64`, `C78_rate`, `C71_real`, `C71_all_stable_refuted`, `C82_float64`, `C76_explicit`, `C87_total`, `C87_order`, `C87_registered`, `C87_collocation`, `C87_embedded`, `C88_total`, `C88_weights`, `C88_collocation`, `C88_last`.

## Properties and theorems

Statements are in `properties.jsonl`, the status in `MANIFEST.json`.
Unless marked (R), which stands for the axioms just listed, a theorem is closed
under the global context.

* **C01** Interpolation is exact for polynomials — proved. `C01_interpolation_exact`.
* **C02** Interpolation rows: partition of unity and copy rows — proved. `C02_rows_sum_to_one_and_copy`.
* **C03** Weight algorithms are interchangeable — proved. `C03_settings_interchangeable`, `C03_chebfun_single_point_refuted`.
* **C04** Duplicated points — proved. `C04_duplicated_points`.
* **C05** Integration matrix is exact for polynomials — proved. `C05_integration_exact`.
* **C06** Integration rows are additive over intervals — proved. `C06_integration_additive`.
* **C07** Fejer rule is exact, positive and symmetric — proved. `C07_exact` (R), `C07_nodes` (R), `C07_weights` (R), `C07_no_points` (R), `C07_meets_contract` (R), `C07_lagrange_integration` (R).
* **C08** First derivative matrix is exact — proved. `C08_first_derivative_exact`.
* **C09** Second derivative matrix is exact — proved. `C09_second_derivative_exact`.
* **C10** Lagrange error branches — proved. `C10_constructor_outcomes`, `C10_method_outcomes`.
* **C11** Evaluation as a function — proved. `C11_call_evaluates_interpolant`, `C11_interpolant_exists`.
* **C12** Sparse interpolation, non periodic — proved. `C12_order_too_large`, `C12_negative_order`, `C12_rows`, `C12_sums_and_support`, `C12_exact`, `C12_one_point`, `C12_reuse_refuted`, `C12_fine_grid_refuted`. Unconditional exactness is false: C12_reuse_refuted, C12_fine_grid_refuted (np.allclose reuses the previous line).
* **C13** Sparse interpolation, periodic — proved. `C13_negative_order`, `C13_rows`, `C13_sums_and_support`, `C13_exact`, `C13_output_shift`, `C13_far_grid_refuted`, `C13_both_ends_refuted`. The restriction on the grid is needed: C13_far_grid_refuted, C13_both_ends_refuted.
* **C14** Distinct points in any order — proved. `C14_unsorted_points_refuted`, `C14_unsorted_derivative_refuted`, `C14_rows`, `C14_exact_iff`, `C14_derivative_iff`, `C14_all_exact`, `C14_sorted`, `C14_decreasing_symmetric`, `C14_two_points`, `C14_pole_refuted`. Exactness for every order of the points is false: C14_unsorted_points_refuted, C14_unsorted_derivative_refuted, C14_pole_refuted; the exact condition is C14_exact_iff.
* **C15** Equidistant nodes — proved. `C15_equidistant`, `C15_values`.
* **C16** Node generator argument checks — proved. `C16_constructor`, `C16_getNodes`.
* **C17** Modified recurrence coefficients are well defined — proved. `C17_coefficients`, `C17_denominators`.
* **C18** Prescribed end points are eigenvalues — proved. `C18_endpoints`, `C18_forcing`.
* **C19** Orthogonal polynomial nodes are increasing and inside the interval — proved. `C19_nodes`.
* **C20** Node symmetry — proved. `C20_mirror`, `C20_symmetric`, `C20_equidistant`.
* **C21** Collocation matrix is exact — proved. `C21_defined`, `C21_nodes`, `C21_exact`.
* **C22** Last row and weights — proved. `C22_last_row`, `C22_first_row`, `C22_left_is_node`, `C22_right_is_node`.
* **C23** Zero-to-node and node-to-node forms — proved. `C23_S`, `C23_transfer`.
* **C24** Legendre quadrature order — proved. `C24_legendre_order`, `C24_no_order`.
* **C25** Order bonus of symmetric nodes — proved. `C25_declared_order`.
* **C26** Collocation step has the declared order on the Dahlquist problem — proved. `C26_moments`, `C26_dahlquist_order`.
* **C27** Affine covariance of collocation — proved. `C27_affine`.
* **C28** End snapping keeps the nodes — proved. `C28_nodes_kept`, `C28_unit_interval_refuted`, `C28_large_offset_refuted`. The unconditional claim is false: C28_unit_interval_refuted, C28_large_offset_refuted.
* **C29** hCoeffs and rightIsNode refer to the right boundary — proved. `C29_hCoeffs`, `C29_fallback_unused`, `C29_rk_hCoeffs`, `C29_right_boundary_refuted`, `C29_EDIRK43_refuted`. The expected reading is false: C29_right_boundary_refuted, C29_EDIRK43_refuted.
* **C30** Padding does not change the method — proved. `C30_padding_invariant`, `C30_padding_argument`, `C30_padded_table`, `C30_padding_consistent`.
* **C31** Padding and embedded weights — proved. `C31_padded_embedded_fails`, `C31_padding_embedded_refuted`. The expected property is false: C31_padding_embedded_refuted; the failure is proved for every table and padding.
* **C32** Dahlquist solver is the stability function — proved. `C32_stability_function`, `C32_linear_in_u0`, `C32_bad_number_of_steps`.
* **C33** Explicit tables never fail — proved. `C33_explicit_never_fails`.
* **C34** Registered Butcher tables are consistent — proved. `C34_tables_consistent`, `C34_RK53_nodes_refuted`. RK53 is a refuted exception (C34_RK53_nodes_refuted).
* **C35** Registered Butcher tables satisfy the order conditions — proved. `C35_order_conditions`, `C35_embedded_order_conditions`, `C35_linear_order`, `C35_dahlquist_order`, `C35_order_sharp`, `C35_RK32_order_refuted`, `C35_ARK343ERK_order_refuted`, `C35_embedded_order_refuted`. Three refuted exceptions: RK32, ARK343ERK, embedded weights of ARK548L2SAESDIRK.
* **C36** genCoeffs forms — proved. `C36_collocation`, `C36_forms`, `C36_errors`, `C36_N2N_rows`, `C36_rk_embedded`.
* **C37** BE, FE and TRAP matrices — proved. `C37_init`, `C37_entries`, `C37_N2N`, `C37_consistent`, `C37_integer_nodes_refuted`. Statement was narrowed: the unconditional form is false, C37_integer_nodes_refuted.
* **C38** Parallel BE and TRAP — proved. `C38_entries`, `C38_consistent`. Statement was replaced: the expected one (any tLeft) is false; C38_consistent gives the exact condition tLeft=0.
* **C39** SOE sweep — proved. `C39_leapfrog`, `C39_never_consistent`, `C39_zero_first`. Statement was replaced: consistency was expected and is false for positive first nodes (C39_never_consistent).
* **C40** MIN-SR-NS is nilpotent — proved. `C40_nilpotent`, `C40_offset_refuted`. Restricted to intervals starting at 0; C40_offset_refuted shows the restriction is needed.
* **C41** MIN-SR-FLEX converges in M sweeps — proved. `C41_product`, `C41_product_left`.
* **C42** Sweep index handling — proved. `C42_invalid`, `C42_none`, `C42_jumper`, `C42_flexjumper`, `C42_dnodes`, `C42_minsrns`, `C42_flex`.
* **C43** LDU factorization — proved. `C43_ldu`, `C43_not_square`.
* **C44** LDU sweep and zero first rows — proved. `C44_zero_first_row_refuted`, `C44_left_node_refuted`. Statement was replaced: the expected one (always finite) is false, C44_zero_first_row_refuted and C44_left_node_refuted.
* **C45** LU sweep — proved. `C45_LU`, `C45_nilpotent`, `C45_LU2`, `C45_exchange_refuted`. Nilpotency needs the no-exchange premise: C45_exchange_refuted.
* **C46** Algebraic sweeps — proved. `C46_PIC`, `C46_Exact`, `C46_QPar`, `C46_GS`.
* **C47** getQDelta cache is transparent — proved. `C47_cache_transparent`, `C47_kindep`. Includes private-array histories; the non-copying calls are excluded because of C48.
* **C48** Which returned arrays are shared — proved. `C48_shared`, `C48_shared_memo`, `C48_shared_argument`, `C48_private_refuted`, `C48_rk_shared`, `C48_rk_padded_private`. Statement was replaced: privacy was expected and is false, C48_private_refuted.
* **C49** genQDeltaCoeffs sweep semantics — proved. `C49_sweeps`, `C49_agree`, `C49_errors`.
* **C50** genQDeltaCoeffs extends the caller's list — proved. `C50_argument_after`, `C50_unchanged_iff`, `C50_second_call`, `C50_unmodified_refuted`. Statement was replaced: C50_unmodified_refuted.
* **C51** Parameters override those of qGen — proved. `C51_resolution`, `C51_values`, `C51_both`, `C51_coll_alias`, `C51_nested`, `C51_surplus`.
* **C52** Registry uniqueness — proved. `C52_stable`, `C52_existing_name`, `C52_success_iff`, `C52_stored`, `C52_keys_unique`, `C52_getClasses`, `C52_getClasses_once`.
* **C53** Trace of a failed registration — proved. `C53_class_stays`, `C53_unchanged_iff`, `C53_state`, `C53_inherited_aliases`, `C53_nearest_aliases`, `C53_atomic_refuted`. Statement was replaced: C53_atomic_refuted.
* **C54** numericalOrder recovers the order — proved. `C54_exact_order`, `C54_integer_order`, `C54_least_squares`, `C54_scaling`, `C54_single_size`, `C54_nonpositive_error`, `C54_one_error`, `C54_sizes`.
* **C55** Extrapolation matrix — proved. `C55_defined`, `C55_negative`, `C55_exact`, `C55_least_squares`, `C55_interpolation`.
* **C56** SDC fixed point is the collocation solution — proved. `C56_fixed_point`, `C56_exact`.
* **C57** SDC error recursion and order — proved. `C57_bound`, `C57_order_exact`, `C57_order_weights`, `C57_order_last`, `C57_collocation`, `C57_last_node_refuted`, `C57_error_recursion`. Statement was narrowed: the last-node update needs the last node to be 1 (C57_last_node_refuted).
* **C58** Trapezoidal first sweep — proved. `C58_order_weights`, `C58_order_last`, `C58_trap_linear`, `C58_collocation`.
* **C59** SDC shapes and monitors — proved. `C59_solution`, `C59_residual`, `C59_monitoring_neutral`, `C59_unknown_key`, `C59_shapes`, `C59_repeat`, `C59_size`.
* **C60** Shape of the expected SDC order — proved. `C60_bonus`, `C60_bounds`, `C60_base_monotone`, `C60_base_bound`, `C60_count`, `C60_exceeds_refuted`, `C60_monotone_refuted`, `C60_twice_refuted`, `C60_base_value`. Statement was replaced: the expected one (bounded by the collocation order, monotone, at most 2k+1) is false: C60_exceeds_refuted, C60_monotone_refuted, C60_twice_refuted.
* **C61** Quadrature and last-node updates agree at convergence — proved. `C61_collocation`, `C61_difference`, `C61_converged`, `C61_updates`.
* **C62** Nodal polynomial is the classical one — proved. `C62_nodal_polynomial`.
* **C63** MIN-SR-S is nilpotent — proved. `C63_nilpotent`, `C63_nilpotent_left`. Under an exact-root contract for scipy.optimize.fsolve.
* **C64** Sweeps extracted from a generator on another interval — proved. `C64_timestep`, `C64_minsr_refuted`. The expected statement (every interval) is false; proved as an equivalence with a=0, C64_minsr_refuted for MIN-SR-S.
* **C65** The expected SDC order is attained — proved. `C65_equid_quadrature`, `C65_equid_last`, `C65_expected_refuted`, `C65_base_attained`. That the expected order is always attained is false (C65_expected_refuted); the exact order is proved on equidistant nodes only, the base order for all collocation methods.
* **C66** The contracts of the external routines are satisfiable; collocation on the real numbers without premises — proved. `C66_eigenvalues_exist`, `C66_contracts_exist`, `C66_nodes_unique`, `C66_nodes_ok` (R), `C66_rules_ok` (R), `C66_collocation` (R).
* **C67** Closed forms of the Chebyshev nodes — proved. `C67_closed_forms` (R), `C67_fejer_nodes` (R), `C67_real` (R).
* **C68** Optimised diagonal coefficients: MIN, MIN3, MIN-VDHS — proved. `C68_stored_unique`, `C68_lookup`, `C68_registerTable`, `C68_supported`, `C68_positive`, `C68_stiff`, `C68_min`, `C68_real` (R).
* **C69** Error of a numerical solution of the Dahlquist problem — proved. `C69_error`, `C69_error_raises`, `C69_errorSDC`, `C69_errorSDC_raises`, `C69_given`, `C69_given_wrong_size`, `C69_given_size_refuted`, `C69_zero`. The expected rejection of every wrong length is false: C69_given_size_refuted (a single value is broadcast).
* **C70** Stability function and stiff limit of collocation methods — proved. `C70_stability_function`, `C70_stiff_limit`.
* **C71** Stability of the Legendre collocation methods in the left half plane — proved. `C71_stable`, `C71_radau_left`, `C71_real` (R), `C71_all_stable_refuted` (R). The expected form (all four types) is false: C71_all_stable_refuted; C71_radau_left says it fails for every RADAU-LEFT method. Nodes that are not end points are supposed not to be rounded to them (premise separated).
* **C72** Registration decorators — proved. `C72_qdelta_success`, `C72_qdelta_effect`, `C72_qdelta_failure`, `C72_qdelta_mistakes`, `C72_kdependent`, `C72_table`, `C72_call`, `C72_q_success`, `C72_q_effect`, `C72_q_not_buildable`, `C72_rk_success`, `C72_kdependent_refuted`, `C72_mixin_refuted`, `C72_rk_trace_refuted`, `C72_rk_b2_refuted`, `C72_rk_nodes_refuted`. Expected forms that are false: C72_kdependent_refuted, C72_mixin_refuted, C72_rk_trace_refuted, C72_rk_b2_refuted, C72_rk_nodes_refuted.
* **C73** Registries of the package — proved. `C73_import`, `C73_kdependent`, `C73_tables`.
* **C74** Zero-to-node and node-to-node forms of a sweep — proved. `C74_forms`, `C74_triangular`, `C74_BE`, `C74_FE`, `C74_TRAP`, `C74_PIC`.
* **C75** Convergence of the sweeps for small steps — proved. `C75_nodes`, `C75_step`.
* **C76** Convergence of the Dahlquist error with the number of steps — proved. `C76_explicit` (R), `C76_convergence` (R), `C76_registered` (R), `C76_collocation` (R), `C76_sdc` (R).
* **C77** Leading term and exact rate of the Dahlquist error — proved. `C77_leading_term` (R), `C77_rk_rate` (R), `C77_sdc_rate` (R), `C77_equid_quadrature` (R), `C77_equid_last` (R).
* **C78** The declared order of a collocation method is exact — proved. `C78_exact_order`, `C78_not_higher`, `C78_moments`, `C78_rate` (R).
* **C79** Rounding errors of the barycentric weights, the interpolation matrix and the evaluation — proved. `C79_init`, `C79_interpolation`, `C79_call`, `C79_exact`, `C79_float64` (R).
* **C80** Rounding errors of the derivative matrices — proved. `C80_derivatives`.
* **C81** Rounding errors of the integration matrix — proved. `C81_abscissa`, `C81_quadrature`, `C81_forward`.
* **C82** Butcher tables stored with rounded numbers — proved. `C82_consistent`, `C82_order`, `C82_embedded_order`, `C82_dahlquist`, `C82_sharp`, `C82_rounded`, `C82_float64` (R).
* **C83** Rounding errors of the time-stepping matrices — proved. `C83_euler`, `C83_trap`, `C83_rows`, `C83_backward`, `C83_parallel`.
* **C84** Rounding errors of the Dahlquist solver — proved. `C84_solution`, `C84_small_steps`, `C84_growth`, `C84_bad_number_of_steps`.
* **C85** Rounding errors of spectral deferred corrections — proved. `C85_rounding`, `C85_nodes`, `C85_solution`, `C85_small_nodes`, `C85_small`, `C85_small_rounding`, `C85_bad_arguments`.
* **C86** The Dahlquist solvers with inexact coefficients — proved. `C86_sensitivity`, `C86_solver`, `C86_sdc`, `C86_stored`, `C86_small`.
* **C87** Total error of solveDahlquist against the exponential — proved. `C87_total` (R), `C87_order` (R), `C87_registered` (R), `C87_embedded` (R), `C87_collocation` (R).
* **C88** Total error of solveDahlquistSDC against the exponential — proved. `C88_total` (R), `C88_weights` (R), `C88_last` (R), `C88_collocation` (R).
