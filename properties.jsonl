{"id": "C01", "title": "Interpolation is exact for polynomials", "statement": "For strictly increasing points x_0<...<x_{n-1} and any list of times, getInterpolationMatrix(times) returns finite numbers and applied to the values p(x_j) of any polynomial p of degree at most n-1 returns p(t) for each time t, including times equal to a point.", "quantifier": "every n>=1, every strictly increasing list of points, every list of times, every polynomial of degree < n, every weight algorithm", "why_tests_cant": "The inputs form an infinite (continuous) set; a test samples finitely many of them.", "anchors": ["qmat/lagrange.py:LagrangeApproximation.__init__", "qmat/lagrange.py:LagrangeApproximation.getInterpolationMatrix"]}
{"id": "C02", "title": "Interpolation rows: partition of unity and copy rows", "statement": "Each row of the interpolation matrix sums to one, has n entries, and at a time equal to a point it is the row with a single one at that point and zeros elsewhere.", "quantifier": "every strictly increasing point list, every time", "why_tests_cant": "The inputs form an infinite (continuous) set; a test samples finitely many of them.", "anchors": ["qmat/lagrange.py:LagrangeApproximation.getInterpolationMatrix"]}
{"id": "C03", "title": "Weight algorithms are interchangeable", "statement": "The interpolation, integration and derivative matrices do not depend on weightComputation (AUTO with or without the floating point fallback, FAST, STABLE with scaleRef ZERO or MAX, CHEBFUN with at least two points) nor on scaleWeights.", "quantifier": "every strictly increasing point list, every pair of settings, every times/intervals/order argument", "why_tests_cant": "The inputs form an infinite (continuous) set; a test samples finitely many of them.", "anchors": ["qmat/lagrange.py:LagrangeApproximation.__init__"]}
{"id": "C04", "title": "Duplicated points", "statement": "With repeated points the matrices have one column per given point; the columns of the unused occurrences are zero, and applying the matrix to a value vector equals applying the matrix of the distinct points to the values at the first (USE_LEFT) or last (USE_RIGHT) occurrence of each distinct point.", "quantifier": "every list of points (any order, any repetition pattern with at least one repeat), every value vector, both strategies, interpolation, integration and derivative matrices", "why_tests_cant": "Repetition patterns of arbitrary lists and arbitrary value vectors cannot be enumerated.", "anchors": ["qmat/lagrange.py:LagrangeApproximation._setupDuplicates", "qmat/lagrange.py:LagrangeApproximation._handleDuplicates"]}
{"id": "C05", "title": "Integration matrix is exact for polynomials", "statement": "getIntegrationMatrix(intervals) applied to the values of the derivative of a polynomial P of degree at most n at the points gives P(b)-P(a) for each interval (a,b), also for reversed and empty intervals, for the FEJER rule and for the LEGENDRE rules whenever the external Gauss rule is exact to degree n-1.", "quantifier": "every strictly increasing point list, every list of intervals, every polynomial of degree at most n, every numQuad option", "why_tests_cant": "The inputs form an infinite (continuous) set; a test samples finitely many of them.", "anchors": ["qmat/lagrange.py:LagrangeApproximation.getIntegrationMatrix"]}
{"id": "C06", "title": "Integration rows are additive over intervals", "statement": "Row for (a,c) equals row for (a,b) plus row for (b,c); row for (b,a) is the negated row for (a,b); row for (a,a) is zero.", "quantifier": "every strictly increasing point list, all real a, b, c, every rule", "why_tests_cant": "The inputs form an infinite (continuous) set; a test samples finitely many of them.", "anchors": ["qmat/lagrange.py:LagrangeApproximation.getIntegrationMatrix"]}
{"id": "C07", "title": "Fejer rule is exact, positive and symmetric", "statement": "In exact real arithmetic computeFejerRule(n) with n>=1 never raises and returns n strictly increasing nodes in (-1,1), symmetric about 0, and n positive symmetric weights with sum 2, which integrate exactly over [-1,1] every polynomial of degree at most n-1, and of degree n when n is odd; n<=0 raises. The rule therefore meets what getIntegrationMatrix needs, and LagrangeApproximation over the reals with this rule integrates interpolating polynomials exactly with no hypothesis on the rule, log or exp.", "quantifier": "every integer n, every polynomial; every list of real points meeting the constructor's requirements", "why_tests_cant": "There are infinitely many n; the identity between the DFT formula and the classical weights is an identity in n.", "anchors": ["qmat/lagrange.py:computeFejerRule"]}
{"id": "C08", "title": "First derivative matrix is exact", "statement": "getDerivativeMatrix(1) applied to p(x_j) returns p'(x_i) for polynomials of degree at most n-1; its rows sum to zero.", "quantifier": "every strictly increasing point list, every polynomial of degree < n, every weight algorithm", "why_tests_cant": "The inputs form an infinite (continuous) set; a test samples finitely many of them.", "anchors": ["qmat/lagrange.py:LagrangeApproximation.getDerivativeMatrix"]}
{"id": "C09", "title": "Second derivative matrix is exact", "statement": "getDerivativeMatrix(2) applied to p(x_j) returns p''(x_i) for polynomials of degree at most n-1; its rows sum to zero, it equals the square of the first derivative matrix, and order=\"ALL\" returns exactly the two matrices returned by order=1 and order=2.", "quantifier": "every strictly increasing point list, every polynomial of degree < n", "why_tests_cant": "The inputs form an infinite (continuous) set; a test samples finitely many of them.", "anchors": ["qmat/lagrange.py:LagrangeApproximation.getDerivativeMatrix"]}
{"id": "C10", "title": "Lagrange error branches", "statement": "Unknown weightComputation, unknown scaleRef (when the STABLE algorithm runs), unknown duplicates strategy (when points repeat), unknown numQuad and unknown derivative order raise NotImplementedError, wrong fValues length raises ValueError, evaluation without any values raises AssertionError, and no other input raises in the modelled code.", "quantifier": "every string or integer option value, every point list", "why_tests_cant": "The option strings range over an infinite set.", "anchors": ["qmat/lagrange.py:LagrangeApproximation.__init__", "qmat/lagrange.py:LagrangeApproximation.__call__"]}
{"id": "C11", "title": "Evaluation as a function", "statement": "Calling the approximation at t returns the value at t of the unique polynomial of degree at most n-1 through (x_j, f_j); stored fValues and explicitly passed fValues give the same result and explicitly passed ones take precedence.", "quantifier": "every strictly increasing point list, every value vector, every list of times", "why_tests_cant": "The inputs form an infinite (continuous) set; a test samples finitely many of them.", "anchors": ["qmat/lagrange.py:LagrangeApproximation.__call__"]}
{"id": "C12", "title": "Sparse interpolation, non periodic", "statement": "On a strictly increasing grid with 1<=order<=size, getSparseInterpolationMatrix succeeds, every row has at most `order` non-zero entries, in the columns of `order` nearest grid points, and sums to one; its coefficients interpolate through these points relative to the output point, or through those of an earlier output point that np.allclose cannot tell apart, so polynomials of degree below `order` are reproduced when np.allclose only identifies equal lists (always for one output point) but not in general (the line is wrongly reused on fine grids or for far output points); order larger than the grid raises AssertionError. A negative order -m (0 < m <= size) is not refused and acts as order size - m.", "quantifier": "every strictly increasing grid, every list of output points, every 1<=order<=size, every valid argsort", "why_tests_cant": "The inputs form an infinite (continuous) set; a test samples finitely many of them.", "anchors": ["qmat/lagrange.py:getSparseInterpolationMatrix"]}
{"id": "C13", "title": "Sparse interpolation, periodic", "statement": "With gridPeriod P>0 and an increasing grid in one period [a,a+P), |a|<=P/2, every row uses `order` different grid points, sums to one, and interpolates through the `order` closest periodic images among all integer shifts (up to reuse of a close earlier line); moving output points by whole periods changes nothing; grids further away than half a period, or containing both ends of the period, give wrong or lower order rows. A negative order -m with 2n <= m <= 3n (n points) acts as order 3n - m.", "quantifier": "every such grid, period, output point list, 1 <= order <= size, every valid argsort and modulo", "why_tests_cant": "The inputs form an infinite (continuous) set; a test samples finitely many of them.", "anchors": ["qmat/lagrange.py:getSparseInterpolationMatrix"]}
{"id": "C14", "title": "Distinct points in any order", "statement": "LagrangeApproximation of distinct points in any order is always constructed; interpolation at a given point gives that point's value; elsewhere a row is the barycentric formula with the weights of the increasing points taken by position. Interpolation at one new point (and likewise the derivative matrix) is exact if and only if these weights are proportional to those of the given order, and then interpolation, integration and both derivatives are exact; this holds for increasing points, two points and symmetric decreasing points, but not in general (wrong values and even infinite entries between the points, e.g. 0,2,1). The expected form, that any order gives the column permutation of the sorted matrices, is false.", "quantifier": "every list of distinct points", "why_tests_cant": "The defect shows only for specific orderings that the test-suite never uses.", "anchors": ["qmat/lagrange.py:LagrangeApproximation.__init__", "qmat/qcoeff/__init__.py:QGenerator.hCoeffs"]}
{"id": "C15", "title": "Equidistant nodes", "statement": "For nodeType EQUID, getNodes(M) returns M strictly increasing equally spaced nodes in [-1,1]; -1 is a node exactly for RADAU-LEFT and LOBATTO, +1 exactly for RADAU-RIGHT and LOBATTO.", "quantifier": "every M admitted by the argument check, every quadrature type", "why_tests_cant": "Infinitely many M.", "anchors": ["qmat/nodes.py:NodesGenerator.getNodes"]}
{"id": "C16", "title": "Node generator argument checks", "statement": "Constructor and getNodes raise ValueError exactly for unknown node types, unknown quadrature types, fewer than two nodes for LOBATTO/RADAU-LEFT and fewer than one otherwise.", "quantifier": "every pair of strings, every integer", "why_tests_cant": "Infinite set of strings and integers.", "anchors": ["qmat/nodes.py:NodesGenerator.__init__", "qmat/nodes.py:NodesGenerator.getNodes"]}
{"id": "C17", "title": "Modified recurrence coefficients are well defined", "statement": "getTridiagCoefficients never divides by zero nor solves a singular system, and the off-diagonal coefficients beta_1..beta_{M-1} are positive so that the square roots are real.", "quantifier": "every M admitted, every orthogonal node type, every quadrature type", "why_tests_cant": "Infinitely many M.", "anchors": ["qmat/nodes.py:NodesGenerator.getTridiagCoefficients", "qmat/nodes.py:NodesGenerator.evalOrthogPoly", "qmat/nodes.py:NodesGenerator.getOrthogPolyCoefficients"]}
{"id": "C18", "title": "Prescribed end points are eigenvalues", "statement": "The characteristic polynomial of the tridiagonal matrix handed to the eigenvalue solver vanishes at -1 for RADAU-LEFT and LOBATTO and at +1 for RADAU-RIGHT and LOBATTO, so forcing the end nodes changes nothing in exact arithmetic.", "quantifier": "every M admitted, every orthogonal node type", "why_tests_cant": "Infinitely many M; tests only see the overwritten end nodes.", "anchors": ["qmat/nodes.py:NodesGenerator.getTridiagCoefficients", "qmat/nodes.py:NodesGenerator.getNodes"]}
{"id": "C19", "title": "Orthogonal polynomial nodes are increasing and inside the interval", "statement": "Given an eigenvalue solver that returns the eigenvalues of the symmetric tridiagonal matrix, getNodes(M) returns M strictly increasing nodes in [-1,1] which contain -1 (+1) exactly when the quadrature type says so.", "quantifier": "every M admitted, every orthogonal node type and quadrature type", "why_tests_cant": "Infinitely many M.", "anchors": ["qmat/nodes.py:NodesGenerator.getNodes"]}
{"id": "C20", "title": "Node symmetry", "statement": "For EQUID, LEGENDRE, CHEBY-1 and CHEBY-2 with GAUSS or LOBATTO the nodes are symmetric about 0; RADAU-LEFT nodes are the mirror image of RADAU-RIGHT nodes; CHEBY-3 nodes mirror CHEBY-4 nodes.", "quantifier": "every M admitted", "why_tests_cant": "Infinitely many M.", "anchors": ["qmat/nodes.py:NodesGenerator.getNodes"]}
{"id": "C21", "title": "Collocation matrix is exact", "statement": "Q of Collocation applied to the values of P' at the nodes gives P(tau_i)-P(tLeft), and the weights give P(tRight)-P(tLeft), for every polynomial P of degree at most M; row sums of Q are tau_i-tLeft, weights sum to tRight-tLeft.", "quantifier": "every strictly increasing node list (as produced by the generator), every interval, every such P", "why_tests_cant": "The inputs form an infinite (continuous) set; a test samples finitely many of them.", "anchors": ["qmat/qcoeff/collocation.py:Collocation.__init__"]}
{"id": "C22", "title": "Last row and weights", "statement": "When the last node is tRight, the weights equal the last row of Q; when the first node is tLeft the first row of Q is zero.", "quantifier": "every node list and interval", "why_tests_cant": "The inputs form an infinite (continuous) set; a test samples finitely many of them.", "anchors": ["qmat/qcoeff/collocation.py:Collocation.__init__"]}
{"id": "C23", "title": "Zero-to-node and node-to-node forms", "statement": "For collocation, S (computed by its own integrals) equals T Q; for every generator Tinv T = T Tinv = I and Tinv S = Q.", "quantifier": "every node list, every square Q of every size", "why_tests_cant": "The inputs form an infinite (continuous) set; a test samples finitely many of them.", "anchors": ["qmat/qcoeff/collocation.py:Collocation.S", "qmat/qcoeff/__init__.py:QGenerator.S", "qmat/qcoeff/__init__.py:QGenerator.T", "qmat/qcoeff/__init__.py:QGenerator.Tinv"]}
{"id": "C24", "title": "Legendre quadrature order", "statement": "For LEGENDRE nodes the collocation weights integrate polynomials exactly up to degree 2M-1 (GAUSS), 2M-2 (RADAU), 2M-3 (LOBATTO), matching the declared order 2M, 2M-1, 2M-2. No order (None) is declared exactly for LEGENDRE nodes with a quadrature type that the constructor refuses.", "quantifier": "every M admitted, every polynomial up to that degree, every interval", "why_tests_cant": "Infinitely many M and polynomials.", "anchors": ["qmat/qcoeff/collocation.py:Collocation.order", "qmat/qcoeff/collocation.py:Collocation.__init__", "qmat/nodes.py:NodesGenerator.getTridiagCoefficients"]}
{"id": "C25", "title": "Order bonus of symmetric nodes", "statement": "For node distributions symmetric about the middle of the interval with M odd, the weights integrate exactly polynomials of degree M as well, matching the declared order M + M%2.", "quantifier": "every odd M, every symmetric strictly increasing node list, every interval", "why_tests_cant": "Infinitely many M; the source code itself only guesses the reason.", "anchors": ["qmat/qcoeff/collocation.py:Collocation.order"]}
{"id": "C26", "title": "Collocation step has the declared order on the Dahlquist problem", "statement": "One step of solveDahlquist with collocation coefficients equals the truncated exponential series of degree p plus a remainder bounded by C|z|^(p+1), where p is the exactness order of the weights.", "quantifier": "every M, every z=lam*dt small enough (explicit radius), every u0", "why_tests_cant": "The inputs form an infinite (continuous) set; a test samples finitely many of them.", "anchors": ["qmat/qcoeff/collocation.py:Collocation", "qmat/qcoeff/__init__.py:QGenerator.solveDahlquist"]}
{"id": "C27", "title": "Affine covariance of collocation", "statement": "Collocation on [tLeft,tRight] gives nodes tLeft+(tRight-tLeft)tau, Q and weights multiplied by (tRight-tLeft) with respect to the unit interval, and the same interpolation rows at corresponding points, provided no node is within the np.allclose tolerance of an end point it differs from.", "quantifier": "every interval with tLeft<tRight, every node list", "why_tests_cant": "The inputs form an infinite (continuous) set; a test samples finitely many of them.", "anchors": ["qmat/qcoeff/collocation.py:Collocation.__init__"]}
{"id": "C28", "title": "End snapping keeps the nodes", "statement": "The np.allclose safety of Collocation leaves every node at its scaled position when each node that is not an end point is further from it than the tolerance; without this proviso the claim is false (GAUSS nodes are moved to the boundary for a large offset, and on the unit interval for many nodes).", "quantifier": "every interval, every M, every node type", "why_tests_cant": "Depends on interval offset and length that the tests do not vary.", "anchors": ["qmat/qcoeff/collocation.py:Collocation.__init__"]}
{"id": "C29", "title": "hCoeffs and rightIsNode refer to the right boundary", "statement": "hCoeffs interpolates at 1 (not at tRight) and rightIsNode compares the last node with 1; both refer to the right boundary exactly when it is 1. On other intervals, and for the unsorted nodes of EDIRK43, the expected reading is false (refuted by witnesses). The fallback value of RK.hCoeffs for an AssertionError is never used, since no AssertionError can be raised there.", "quantifier": "every interval [tLeft,tRight]", "why_tests_cant": "Tests use the default unit interval only.", "anchors": ["qmat/qcoeff/collocation.py:Collocation.hCoeffs", "qmat/qcoeff/__init__.py:QGenerator.rightIsNode"]}
{"id": "C30", "title": "Padding does not change the method", "statement": "solveDahlquist gives the same trajectory (or raises in the same cases) with padding None, LEFT, RIGHT and BOTH.", "quantifier": "every Butcher table, every lam, u0, tEnd, nSteps, every padding", "why_tests_cant": "The inputs form an infinite (continuous) set; a test samples finitely many of them.", "anchors": ["qmat/qcoeff/butcher.py:RK.__init__", "qmat/qcoeff/__init__.py:QGenerator.solveDahlquist"]}
{"id": "C31", "title": "Padding and embedded weights", "statement": "Padding breaks embedded weights (finding): one would expect the embedded weights of a padded scheme to have the padded number of stages, but for every table with embedded weights and every non-empty padding b2 keeps its length, so that solveDahlquist(useEmbeddedWeights=True) and genCoeffs(embedded=True) raise ValueError.", "quantifier": "every embedded Butcher table, every padding", "why_tests_cant": "No test combines padding and embedded weights.", "anchors": ["qmat/qcoeff/butcher.py:RK.__init__", "qmat/qcoeff/butcher.py:RK.weightsEmbedded", "qmat/qcoeff/__init__.py:QGenerator.genCoeffs"]}
{"id": "C32", "title": "Dahlquist solver is the stability function", "statement": "solveDahlquist returns nSteps+1 values starting with u0 with u_{n+1}=R(z)u_n, R(z)=1+z b^T (I-zA)^{-1} 1; it raises LinAlgError exactly when I-zA is singular (and nSteps>=1), and the result is linear in u0.", "quantifier": "every square table, every lam, u0, tEnd, every nSteps>=1", "why_tests_cant": "The inputs form an infinite (continuous) set; a test samples finitely many of them.", "anchors": ["qmat/qcoeff/__init__.py:QGenerator.solveDahlquist"]}
{"id": "C33", "title": "Explicit tables never fail", "statement": "For strictly lower triangular Q, solveDahlquist never raises and the step multiplies by the polynomial sum_k z^k b^T A^(k-1) 1 of degree at most the number of stages.", "quantifier": "every strictly lower triangular table, every lam, tEnd, nSteps>=1", "why_tests_cant": "The inputs form an infinite (continuous) set; a test samples finitely many of them.", "anchors": ["qmat/qcoeff/__init__.py:QGenerator.solveDahlquist"]}
{"id": "C34", "title": "Registered Butcher tables are consistent", "statement": "Every registered table has matching shapes and weights (and embedded weights) summing to one, and row sums of A equal to c, up to the rounding of tables printed with finitely many digits (exactly for all others). The only exception is RK53, whose third row sums to 3/13 while c = 3/16 (finding).", "quantifier": "every registered scheme", "why_tests_cant": "Finite; the convergence tests of the repository use autonomous linear problems and never look at c.", "anchors": ["qmat/qcoeff/butcher.py:checkAndStore", "qmat/qcoeff/butcher.py"]}
{"id": "C35", "title": "Registered Butcher tables satisfy the order conditions", "statement": "Every registered table satisfies all rooted-tree order conditions up to its declared order and not up to the next one (up to table rounding), and embedded weights up to orderEmbedded; all have the declared order on linear problems. The only exceptions are RK32 and ARK343ERK (declared 3 and 4, conditions of that order violated) and the embedded weights of ARK548L2SAESDIRK (declared 5, violated), all refuted (findings).", "quantifier": "every registered scheme, every rooted tree up to the declared order", "why_tests_cant": "Repository tests only measure convergence on the linear scalar problem, which cannot see the non-linear trees.", "anchors": ["qmat/qcoeff/butcher.py"]}
{"id": "C36", "title": "genCoeffs forms", "statement": "genCoeffs returns (nodes, weights, Q) for Z2N, S instead of Q for N2N, appends hCoeffs and stacks embedded weights on request, and raises ValueError exactly for other form strings. For a collocation object a request for embedded weights raises NotImplementedError, and hCoeffs are returned on demand. For a registered Runge-Kutta table the embedded weights are stacked below the weights when the table has them, and requesting them raises otherwise.", "quantifier": "every generator, every form string, every flag combination", "why_tests_cant": "Infinite set of strings.", "anchors": ["qmat/qcoeff/__init__.py:QGenerator.genCoeffs", "qmat/qcoeff/__init__.py:genQCoeffs"]}
{"id": "C37", "title": "BE, FE and TRAP matrices", "statement": "For real-typed nodes the returned matrices are the node-to-node sweeps: BE lower triangular with entries delta_j, FE strictly lower triangular with entries delta_{j+1}, TRAP their mean; their node-to-node forms have only delta entries on one or two diagonals; row sums plus dTau equal nodes-tLeft for all three. (Expected without the typing condition, which is false: for an integer node array and a fractional tLeft the in-place subtraction truncates the first step.)", "quantifier": "every node list of every length, every tLeft", "why_tests_cant": "The inputs form an infinite (continuous) set; a test samples finitely many of them.", "anchors": ["qmat/qdelta/timestepping.py:TimeStepping.__init__", "qmat/qdelta/timestepping.py:BE.computeQDelta", "qmat/qdelta/timestepping.py:FE.computeQDelta", "qmat/qdelta/timestepping.py:TRAP.computeQDelta"]}
{"id": "C38", "title": "Parallel BE and TRAP", "statement": "BEPAR and TRAPAR subtract tLeft from every entry of diag(nodes) and diag(nodes/2); hence they are diagonal exactly when tLeft=0, and the row sums plus dTau equal nodes-tLeft exactly when tLeft=0 (for BEPAR also when M=1). (Expected: diagonal and consistent for every tLeft, which is false.)", "quantifier": "every node list, every tLeft", "why_tests_cant": "tLeft is never varied in the tests of these classes.", "anchors": ["qmat/qdelta/timestepping.py:BEPAR.computeQDelta", "qmat/qdelta/timestepping.py:TRAPAR.computeQDelta"]}
{"id": "C39", "title": "SOE sweep", "statement": "The SOE matrix is strictly lower triangular and implements the variable step leap-frog recurrence: the derivative at node m of the quadratic through the three neighbouring values equals f at node m. Row sums plus dTau equal the nodes when the first node is 0, and never do when it is positive and M>1. (Expected: consistent as the other time-stepping sweeps, which is false.)", "quantifier": "every strictly increasing positive node list, every right-hand side vector", "why_tests_cant": "The inputs form an infinite (continuous) set; a test samples finitely many of them.", "anchors": ["qmat/qdelta/timestepping.py:SOE.computeQDelta", "qmat/qdelta/timestepping.py:SOE.dTau"]}
{"id": "C40", "title": "MIN-SR-NS is nilpotent", "statement": "With QDelta=diag(tau)/M, (Q-QDelta)^M = 0 for every collocation matrix on [0,b] (non stiff limit). (For a left end other than 0 it is false.)", "quantifier": "every M>=1, node type, quadrature type and right end b>0", "why_tests_cant": "The inputs form an infinite (continuous) set; a test samples finitely many of them.", "anchors": ["qmat/qdelta/diag.py:MIN_SR_NS.computeQDelta"]}
{"id": "C41", "title": "MIN-SR-FLEX converges in M sweeps", "statement": "With the matrices QDelta_k that MIN_SR_FLEX returns, the product of (I - QDelta_k^{-1} Q) over any list of indices that contains 1..M vanishes (stiff limit), in any order of the factors; with a zero first node this holds for the remaining nodes, already for lists containing 2..M.", "quantifier": "every M>=1, every node and quadrature type on [0,1], every list of indices", "why_tests_cant": "The inputs form an infinite (continuous) set; a test samples finitely many of them.", "anchors": ["qmat/qdelta/diag.py:MIN_SR_FLEX.computeQDelta"]}
{"id": "C42", "title": "Sweep index handling", "statement": "For k-dependent generators k=None means k=1, k<1 raises ValueError, Jumper is diag(tau)/(2k), FlexJumper is diag(tau) for k=1 and Jumper at k-1 afterwards, MIN_SR_FLEX is diag(tau)/k for k<=M and MIN_SR_S afterwards; MIN_SR_NS and DNODES-d are diag(tau)/M and diag(tau)/d for every k, MIN_SR_S does not depend on k.", "quantifier": "every integer k, every node list", "why_tests_cant": "Infinitely many k.", "anchors": ["qmat/qdelta/diag.py:check", "qmat/qdelta/diag.py:Jumper.computeQDelta", "qmat/qdelta/diag.py:FlexJumper.computeQDelta", "qmat/qdelta/diag.py:DNODES.computeQDelta"]}
{"id": "C43", "title": "LDU factorization", "statement": "lduFactorization returns L unit lower triangular, D diagonal, U unit upper triangular with L D U = A whenever every leading pivot is non-zero, for every size; non-square input raises AssertionError.", "quantifier": "every square matrix with non-zero leading pivots", "why_tests_cant": "The inputs form an infinite (continuous) set; a test samples finitely many of them.", "anchors": ["qmat/utils/num.py:lduFactorization", "qmat/qdelta/algebraic.py:LDU.computeQDelta"]}
{"id": "C44", "title": "LDU sweep and zero first rows", "statement": "If the first row of Q vanishes, every other diagonal entry returned by the LDU approximation is NaN; this happens for every collocation matrix whose quadrature includes the left end. (Expected: finite coefficients for every Q of the library, which is false; C43 gives finiteness when the leading minors do not vanish.)", "quantifier": "every square Q of size >1 with zero first row; every collocation with a left node", "why_tests_cant": "Only a non-zero first row is tested.", "anchors": ["qmat/qdelta/algebraic.py:LDU.computeQDelta", "qmat/utils/num.py:lduFactorization"]}
{"id": "C45", "title": "LU sweep", "statement": "The LU approximation is lower triangular and is the factor of a row-exchanged factorization; when no row exchange occurs and Q is invertible, I - QDelta^{-1} Q is nilpotent of index M; LU2 is twice LU. (The nilpotency fails with exchanges, which happen for Collocation(4,EQUID,GAUSS).)", "quantifier": "every invertible Q of every size", "why_tests_cant": "The inputs form an infinite (continuous) set; a test samples finitely many of them.", "anchors": ["qmat/qdelta/algebraic.py:LU.computeQDelta", "qmat/qdelta/algebraic.py:LU2.computeQDelta"]}
{"id": "C46", "title": "Algebraic sweeps", "statement": "PIC is zero, Exact is Q, QPar the diagonal and GS the lower triangle of Q; PIC/QPar/GS/Exact agree with Q on their own support.", "quantifier": "every square Q of every size", "why_tests_cant": "The inputs form an infinite (continuous) set; a test samples finitely many of them.", "anchors": ["qmat/qdelta/algebraic.py"]}
{"id": "C47", "title": "getQDelta cache is transparent", "statement": "Along any sequence of getQDelta/getSDelta/genCoeffs calls that copy (all but getQDelta(copy=False) and genCoeffs of a scalar k in the Z2N form), each call returns the value, or raises the exception, that computeQDelta has for that k and the initial parameters, even when the returned arrays are modified in between.", "quantifier": "every call history with in-place modifications of returned arrays, every k-dependent or k-independent generator, every list of k", "why_tests_cant": "Histories are unbounded.", "anchors": ["qmat/qdelta/__init__.py:QDeltaGenerator.getQDelta"]}
{"id": "C48", "title": "Which returned arrays are shared", "statement": "genCoeffs of a scalar k in the Z2N form returns the cached array: whatever is written to it is returned by all later calls of that generator (for MIN-SR-FLEX also for the other k > M); constructor arguments are not copied; genQCoeffs of a Runge-Kutta scheme without padding returns the arrays of the class, so that a modification changes the results of all later calls, while with padding it does not. (Expected: arrays returned by the public API are private, which is false.)", "quantifier": "every generator class, every k, every content written, every heap", "why_tests_cant": "Requires considering interleavings of calls and mutations of arbitrary length.", "anchors": ["qmat/qdelta/__init__.py:QDeltaGenerator.getQDelta", "qmat/qdelta/__init__.py:QDeltaGenerator.genCoeffs", "qmat/qcoeff/__init__.py:genQCoeffs", "qmat/qdelta/algebraic.py"]}
{"id": "C49", "title": "genQDeltaCoeffs sweep semantics", "statement": "With a string and nSweeps=K the result is the stack of the K matrices for k=1..K; a list completes with its last entry; string+K, one-element list+K and list of K equal strings agree; bad nSweeps, bad type, empty list, short nSweeps and unknown names raise the documented exceptions.", "quantifier": "every list of names, every nSweeps, every form, every registry of generators, with and without dTau", "why_tests_cant": "Infinite combinations of lists and sweep counts.", "anchors": ["qmat/qdelta/__init__.py:genQDeltaCoeffs"]}
{"id": "C50", "title": "genQDeltaCoeffs extends the caller's list", "statement": "Calling genQDeltaCoeffs leaves its argument unchanged except when a non-empty list is given with a larger nSweeps; then the caller's list has length nSweeps afterwards, and a later call with the same list and a smaller (initially valid) nSweeps raises AssertionError. (Expected: the list is never changed, which is false.)", "quantifier": "every list, every nSweeps, every registry", "why_tests_cant": "Tests do not look at the argument after the call.", "anchors": ["qmat/qdelta/__init__.py:genQDeltaCoeffs"]}
{"id": "C51", "title": "Parameters override those of qGen", "statement": "Constructor arguments given explicitly (by keyword or position, keyword first) override those extracted from qGen; coll is an alias of qGen and giving both raises AssertionError; nested wrapping by inheritance does not change the result; surplus positional arguments are silently dropped.", "quantifier": "every argument list, every dictionary of keyword arguments, every extractor", "why_tests_cant": "Infinite combinations of argument lists.", "anchors": ["qmat/utils/__init__.py:useQGen", "qmat/qdelta/__init__.py:register"]}
{"id": "C52", "title": "Registry uniqueness", "statement": "After any sequence of registrations, no name or alias ever changes the class it denotes; registering an existing name raises AssertionError; getClasses returns every registered class exactly once under its first key.", "quantifier": "every sequence of registrations, every set of aliases", "why_tests_cant": "Histories are unbounded.", "anchors": ["qmat/utils/__init__.py:storeClass", "qmat/utils/__init__.py:storeAlias", "qmat/utils/__init__.py:getClasses"]}
{"id": "C53", "title": "Trace of a failed registration", "statement": "A registration that raises AssertionError leaves the registry unchanged if and only if the class name itself was taken; when it fails at an alias, the name and the aliases before the conflict stay registered. A subclass that inherits the aliases of a registered class always fails in this way. The aliases used are those of the class itself or, if it has none, of its nearest ancestor that has some. (Expected: no trace is left, which is false.)", "quantifier": "every registry state, every class, every list of aliases", "why_tests_cant": "Failure points inside the loop over aliases are not tested.", "anchors": ["qmat/utils/__init__.py:storeClass"]}
{"id": "C54", "title": "numericalOrder recovers the order", "statement": "For err_i = C / nSteps_i^p with C>0 and at least two different nSteps, numericalOrder returns exactly (p, 0); for arbitrary positive errors the returned slope is that of the unique line minimising the sum of squares in the log-log plane and rmse is its normalised root; the result does not change when all errors or all step numbers are multiplied by a positive constant; a single step number, or one error that is zero or negative, gives (nan, nan); different lengths raise ValueError. A single error is repeated for all step numbers and gives order 0 with residual 0.", "quantifier": "every list of positive step numbers with two different values, every C>0, every real p, every list of positive errors", "why_tests_cant": "The inputs form an infinite (continuous) set; a test samples finitely many of them.", "anchors": ["qmat/utils/num.py:numericalOrder"]}
{"id": "C55", "title": "Extrapolation matrix", "statement": "getExtrapolationMatrix(nodes, times, pOrder) raises LinAlgError exactly when there are fewer than pOrder+1 distinct nodes (ValueError for pOrder < -1); otherwise it reproduces every polynomial of degree at most pOrder at the times, gives the unique least squares fit for other data (one polynomial whatever the times), and coincides with the Lagrange interpolation matrix for increasing nodes and the default pOrder.", "quantifier": "every node list, all times, every pOrder, all values", "why_tests_cant": "The inputs form an infinite (continuous) set; a test samples finitely many of them.", "anchors": ["qmat/utils/num.py:getExtrapolationMatrix"]}
{"id": "C56", "title": "SDC fixed point is the collocation solution", "statement": "If a sweep leaves the node values unchanged they solve the collocation problem, the collocation solution is left unchanged by every sweep, and one sweep with QDelta=Q gives the same step as solveDahlquist.", "quantifier": "every Q, QDelta of every size, every lam, dt, u0", "why_tests_cant": "The inputs form an infinite (continuous) set; a test samples finitely many of them.", "anchors": ["qmat/utils/sdc.py:solveDahlquistSDC"]}
{"id": "C57", "title": "SDC error recursion and order", "statement": "After k sweeps from the copied initial value the distance (sum of absolute values) to the collocation solution is at most 2 n |Q| prod_j(2|Q-QDelta_j|) |z|^(k+1), for any QDelta matrices; one step agrees with the exponential series up to degree p if and only if the first p+1 expansion coefficients are 1/d!; with a collocation method of order p on [0,1] this holds for min(p, k+1) with the quadrature update, and for min(p, k) with the last-node update if the last node is 1. (Without that last condition the last-node update has order zero.)", "quantifier": "every Q, every sequence of QDelta, every number of sweeps k, every small z; every node type, quadrature type and number of nodes", "why_tests_cant": "The inputs form an infinite (continuous) set; a test samples finitely many of them.", "anchors": ["qmat/utils/sdc.py:solveDahlquistSDC", "qmat/utils/sdc.py:getOrderSDC"]}
{"id": "C58", "title": "Trapezoidal first sweep", "statement": "With TRAP or TRAPAR on the same nodes as first sweep, one step after k>=1 sweeps agrees with the exponential series up to degree min(p, k+2) (quadrature update) resp. min(p, k+1) (last-node update, last node 1).", "quantifier": "every collocation method on [0,1] with at least two nodes, every k>=1, any later sweeps", "why_tests_cant": "The inputs form an infinite (continuous) set; a test samples finitely many of them.", "anchors": ["qmat/utils/sdc.py:getOrderSDC", "qmat/qdelta/timestepping.py:TRAP.computeQDelta", "qmat/qdelta/timestepping.py:TRAPAR.computeQDelta"]}
{"id": "C59", "title": "SDC shapes and monitors", "statement": "solveDahlquistSDC returns nSteps+1 values, powers of one amplification factor times u0; it fails (LinAlgError) exactly when some sweep matrix I - z QDelta_k is singular; a 2D QDelta is equivalent to repeating it; shape mismatches and unknown monitor keys raise AssertionError; the monitors hold the residuals and errors of every sweep and step, residuals being zero exactly when the node values solve the collocation problem; monitoring does not change the solution.", "quantifier": "every input shape, every monitor list", "why_tests_cant": "The inputs form an infinite (continuous) set; a test samples finitely many of them.", "anchors": ["qmat/utils/sdc.py:solveDahlquistSDC"]}
{"id": "C60", "title": "Shape of the expected SDC order", "statement": "getOrderSDC adds to the base order min(order of the collocation, nSweeps (+1 for TRAP/TRAPAR after a sweep) (+1 for the quadrature update)) a bonus of at most 1 (quadrature) resp. 2 (last node) which is non-zero only for the listed numbers of sweeps, schemes, numbers of nodes and node types (58 and 85 combinations); the base order never exceeds the collocation order and is monotone in nSweeps. (The expected order itself may exceed the order of the collocation method, decrease with an additional sweep and exceed 2 nSweeps+1.)", "quantifier": "every collocation order, nSweeps, qDelta name, node type, quadrature type, number of nodes and stepUpdate", "why_tests_cant": "Infinitely many nSweeps and nNodes.", "anchors": ["qmat/utils/sdc.py:getOrderSDC"]}
{"id": "C61", "title": "Quadrature and last-node updates agree at convergence", "statement": "For collocation with last node 1, the weights update and the last-node update of a converged iteration are equal.", "quantifier": "every Q whose last row is the weights, every z, every u0", "why_tests_cant": "The inputs form an infinite (continuous) set; a test samples finitely many of them.", "anchors": ["qmat/utils/sdc.py:solveDahlquistSDC", "qmat/qcoeff/collocation.py:Collocation"]}
{"id": "C62", "title": "Nodal polynomial is the classical one", "statement": "For LEGENDRE and CHEBY-1..4 the polynomial with the returned nodes as roots is a non-zero multiple of the classical orthogonal polynomial of degree M for GAUSS; for RADAU it is that plus a multiple of the polynomial of degree M-1, for LOBATTO plus multiples of those of degrees M-1 and M-2 (together with C18 this characterises Gauss, Gauss-Radau and Gauss-Lobatto points).", "quantifier": "every M admitted, every orthogonal node type and quadrature type, every eigenvalue solver meeting its contract", "why_tests_cant": "Tests compare a handful of node counts with tabulated values to rounding; a wrong recurrence coefficient for larger index or another family needs all M.", "anchors": ["qmat/nodes.py:81-111", "qmat/nodes.py:130-155", "qmat/nodes.py:208-221"]}
{"id": "C63", "title": "MIN-SR-S is nilpotent", "statement": "If fsolve returns an exact root with non-zero entries of the function it is given for the full number of nodes, the matrix returned by MIN_SR_S is diagonal and (I - QDelta^{-1} Q)^M = 0; with a zero first node the same holds on the remaining nodes.", "quantifier": "every M, node type and quadrature type on [0,1]; every fsolve satisfying the contract", "why_tests_cant": "The determinants are evaluated at M points only; that this implies nilpotency is a statement about all z.", "anchors": ["qmat/qdelta/diag.py:MIN_SR_S.computeCoeffs", "qmat/qdelta/diag.py:MIN_SR_S.computeQDelta"]}
{"id": "C64", "title": "Sweeps extracted from a generator on another interval", "statement": "A time-stepping sweep built from a collocation object on [a,b] has, with its dTau, the same row sums as Q if and only if a=0, because extractParams passes the nodes but not tLeft. (Expected: for every interval, which is false. MIN_SR_S and MIN_SR_FLEX always refer to [0,1] and lose their nilpotency on other intervals.)", "quantifier": "every M, node type, quadrature type and interval", "why_tests_cant": "Only the unit interval is tested.", "anchors": ["qmat/qdelta/timestepping.py:TimeStepping.extractParams", "qmat/qdelta/diag.py:MIN_SR_S.extractParams"]}
{"id": "C65", "title": "The expected SDC order is attained", "statement": "The base order of getOrderSDC is attained by the SDC step on the Dahlquist problem, for every collocation method on [0,1] (last-node update: last node 1). On equidistant nodes with 2, 3 or 4 nodes, 0..3 sweeps (quadrature) or 1..4 sweeps (last node) and the schemes BE, FE, TRAP, BEPAR, TRAPAR, SOE, getOrderSDC is exactly the order of the method, except for ten listed combinations for which it is one too high.", "quantifier": "every collocation, number of sweeps and sweep matrices (base order); all 432 equidistant combinations of the test grid (exact order), each for all z near 0", "why_tests_cant": "The convergence tests fit a slope on coarse step sizes and accept a tolerance; they pass for combinations whose true order is one lower than the expected one.", "anchors": ["qmat/utils/sdc.py:getOrderSDC", "qmat/utils/sdc.py:solveDahlquistSDC"]}
{"id": "C66", "title": "The contracts of the external routines are satisfiable; collocation on the real numbers without premises", "statement": "Every symmetric tridiagonal matrix with nonzero off-diagonal entries over a real closed field has a basis of eigenvectors, and Gauss-Legendre rules with all their promised exactness exist for every size, so the premises that the node and collocation properties make about eigh_tridiagonal, leggauss and roots_legendre can be met for all inputs. The nodes do not depend on which eigenvalue solver, square root or value of pi is used. On the real numbers, with pi, sqrt, ln, exp and the Fejer rule computed by the code, Collocation is defined for every supported node type, quadrature type, number of nodes and interval, its nodes increase inside the interval, Q and the weights integrate polynomials of degree below M exactly, and the declared order is exact unless a node other than an end point is within the tolerance of one.", "quantifier": "every real closed field, every tridiagonal matrix; every node type, quadrature type, number of nodes, interval", "why_tests_cant": "Existence for every size, and independence of the solver, range over infinitely many sizes and solvers.", "anchors": ["qmat/nodes.py:NodesGenerator.getNodes", "qmat/qcoeff/collocation.py:Collocation", "qmat/lagrange.py:LagrangeApproximation.getIntegrationMatrix"]}
{"id": "C67", "title": "Closed forms of the Chebyshev nodes", "statement": "getNodes returns -cos((2i+p) pi / (2n+2-r)), i = 0..n-1, for CHEBY-1 GAUSS (p=1, r=2), CHEBY-2 GAUSS (2, 0), CHEBY-3 GAUSS (2, 1), CHEBY-4 GAUSS (1, 1), CHEBY-1 LOBATTO (0, 4), CHEBY-1 RADAU-RIGHT (1, 3), CHEBY-1 RADAU-LEFT (0, 3), CHEBY-3 RADAU-RIGHT (2, 2) and CHEBY-4 RADAU-LEFT (0, 2). The nodes of computeFejerRule are the CHEBY-1 GAUSS nodes.", "quantifier": "every number of nodes", "why_tests_cant": "Tests compare floating-point eigenvalues for a few sizes; equality with the trigonometric formula is for all sizes and exact.", "anchors": ["qmat/nodes.py:NodesGenerator.getNodes", "qmat/nodes.py:NodesGenerator.getOrthogPolyCoefficients", "qmat/nodes.py:NodesGenerator.getTridiagCoefficients", "qmat/lagrange.py:computeFejerRule"]}
{"id": "C68", "title": "Optimised diagonal coefficients: MIN, MIN3, MIN-VDHS", "statement": "A class built on a table returns the diagonal matrix of the stored coefficients when its four keys are stored, whatever k; it raises NotImplementedError when they are not, and ValueError only for a missing table or a stored list of the wrong length, which does not happen with the shipped tables. registerTable raises AttributeError exactly when the module has no table of that name. MIN3 and MIN_VDHS support exactly 20 combinations; their coefficients are positive, except a zero for a node on the left end. For each of them, every eigenvalue of the stiff limit I - QDelta^-1 Q of the sweep on [0,1] (left node removed), real or complex, is smaller in modulus than a listed bound, at most 0.44. MIN: whatever point x the minimiser returns, QDelta is the inverse of diag(x), so that I - QDelta^-1 Q is the matrix whose spectral radius was minimised; LinAlgError is raised exactly when diag(x) is singular.", "quantifier": "every table, every key, every k; every ordered field and every extension of it containing the eigenvalue; every eigenvalue and eigenvector; every result of the minimiser", "why_tests_cant": "Tests compute the spectral radius in floating-point numbers for a few nodes; the bound is for the exact nodes, all eigenvalues and exact coefficients, and lookups range over all strings and integers.", "anchors": ["qmat/qdelta/diag.py:MIN", "qmat/qdelta/diag.py:FromTable", "qmat/qdelta/diag.py:registerTable", "qmat/qdelta/mincoeffs.py"]}
{"id": "C69", "title": "Error of a numerical solution of the Dahlquist problem", "statement": "errorDahlquist and errorDahlquistSDC return the greatest modulus of the differences between the numerical solution and u0 exp(lam t_i) over the nSteps+1 uniform times; they fail exactly when the solver fails or there is no time. A given solution of the wrong length raises ValueError, unless its length is 1: a single value is compared with all times without complaint. (Expected: every wrong length is rejected, which is false.) A zero error means that all values are exact.", "quantifier": "every lam, u0, tEnd, number of steps, every given solution, every exponential function", "why_tests_cant": "The inputs form an infinite (continuous) set; the broadcast of a single value is not tested.", "anchors": ["qmat/qcoeff/__init__.py:QGenerator.errorDahlquist", "qmat/utils/sdc.py:errorDahlquistSDC"]}
{"id": "C70", "title": "Stability function and stiff limit of collocation methods", "statement": "On [0,1] let N be the polynomial of the nodes and S(t) = sum_k N^(k)(t) z^(M-k). solveDahlquist with lam dt = z fails with LinAlgError exactly when S(0) = 0, and otherwise multiplies the solution by S(1)/S(0) at every step, whatever the node distribution. For large |z|, in every direction: RADAU-RIGHT factors tend to 0 like 1/z, RADAU-LEFT factors grow at least like z, GAUSS and LOBATTO factors of the symmetric distributions tend to (-1)^M and (-1)^(M-1).", "quantifier": "every node distribution, number of nodes, step number, initial value, lam and dt; every ordered field and every numeric extension of it (e.g. complex lam); every z", "why_tests_cant": "Tests solve the Dahlquist problem for a few lam with non-stiff or moderately stiff steps; the formula and the limits concern infinitely many z and all numbers of nodes.", "anchors": ["qmat/qcoeff/__init__.py:QGenerator.solveDahlquist", "qmat/qcoeff/collocation.py:Collocation", "qmat/nodes.py:NodesGenerator"]}
{"id": "C71", "title": "Stability of the Legendre collocation methods in the left half plane", "statement": "For LEGENDRE nodes of type GAUSS, RADAU-RIGHT or LOBATTO on [0,1], solveDahlquist succeeds for every complex z = lam dt with Re z <= 0 and its factor has modulus at most 1, less than 1 if Re z < 0, and equal to 1 on the imaginary axis for GAUSS and LOBATTO. (Expected: also for RADAU-LEFT; false: on the imaginary axis, except at 0, the factor of every RADAU-LEFT method has modulus greater than 1.)", "quantifier": "every number of nodes, every complex z with Re z <= 0, every number of steps and initial value; any algebraically closed numeric field over the field of the nodes, in particular the complex numbers over the real numbers", "why_tests_cant": "Stability is a statement about a half plane of infinitely many z and about all numbers of nodes.", "anchors": ["qmat/qcoeff/__init__.py:QGenerator.solveDahlquist", "qmat/qcoeff/collocation.py:Collocation"]}
{"id": "C72", "title": "Registration decorators", "statement": "register for QDelta generators succeeds exactly when the constructor has a **kwargs parameter, computeQDelta differs from that of the last but one class of the resolution order and is a function with a positional-or-keyword parameter k, and the name and aliases are distinct and unused; it then changes only the registry, the constructor (wrapped once more) and the flag _K_DEPENDENT, which is set when k has no default or one that is not None, and is inherited otherwise. A failure changes nothing, except when only the names are taken. register for Q generators succeeds exactly when nodes, Q, weights and order are overridden by properties, the class can be built without arguments or with its DEFAULT_PARAMS, and the names are new; registerRK in addition needs shapes A (n,n) and b (...,n), n the number of nodes. The test call of the constructor reaches its body exactly when every parameter without default is given and every given name is accepted. (Expected but false: the flag tells whether the matrices depend on k; a mixin may be listed after QGenerator; a rejected table is not stored in RK_SCHEMES; embedded weights of a wrong size and a table without nodes are rejected.). registerTable (diag.py) registers like the QDelta decorator when the class name is among the tables of mincoeffs and raises AttributeError without any change otherwise.", "quantifier": "every class (name, resolution order, attributes, signatures), every state of the registries, every behaviour of the constructors", "why_tests_cant": "Tests register the classes of the package and a few wrong ones; class definitions and registry states are infinitely many.", "anchors": ["qmat/utils/__init__.py:checkOverriding", "qmat/utils/__init__.py:checkGenericConstr", "qmat/qcoeff/__init__.py:register", "qmat/qdelta/__init__.py:register", "qmat/qcoeff/butcher.py:checkAndStore", "qmat/qcoeff/butcher.py:registerRK"]}
{"id": "C73", "title": "Registries of the package", "statement": "Importing the package registers all decorated classes without an exception. RK_SCHEMES, Q_GENERATORS and QDELTA_GENERATORS then map every name and alias of every decorated class to it, and contain nothing else. Of the sweeps exactly MIN_SR_FLEX, Jumper and FlexJumper depend on k. The tables of Butcher.v are those of RK_SCHEMES, with the same names, aliases and shapes.", "quantifier": "every key (string), every class of the package", "why_tests_cant": "Tests look up the names they know; that no other string is accepted and that no alias hides another class is a statement about all strings.", "anchors": ["qmat/qcoeff/butcher.py", "qmat/qcoeff/collocation.py", "qmat/qdelta/algebraic.py", "qmat/qdelta/diag.py", "qmat/qdelta/timestepping.py", "qmat/utils/__init__.py:storeClass"]}
{"id": "C74", "title": "Zero-to-node and node-to-node forms of a sweep", "statement": "One sweep of solveDahlquistSDC with the matrices Q and QDelta gives v' exactly when I - lam dt QDelta is invertible and v' solves the node-to-node equations v'_m = v'_{m-1} + lam dt sum_j SDelta_mj (v'_j - v_j) + lam dt sum_j S_mj v_j with S and SDelta the matrices of row differences. For a lower triangular QDelta the invertibility is that of the diagonal. The sweeps BE, FE, TRAP and PIC are, node after node, the implicit Euler, explicit Euler, trapezoidal and Picard steps of length delta_m, corrected by the integral of the previous iterate.", "quantifier": "every field, every size, all matrices, all nodes with any left end, every lam dt and iterate", "why_tests_cant": "Tests compare matrices of a few node sets; the equivalence of the two forms is for all matrices and iterates.", "anchors": ["qmat/utils/sdc.py:solveDahlquistSDC", "qmat/qdelta/timestepping.py:BE", "qmat/qdelta/timestepping.py:FE", "qmat/qdelta/timestepping.py:TRAP", "qmat/qdelta/__init__.py:genCoeffs"]}
{"id": "C75", "title": "Convergence of the sweeps for small steps", "statement": "If |lam dt| times the sum of the absolute entries of every QDelta is at most 1/2 and those of Q - QDelta sum to at most c, then after k sweeps the distance of the nodal values to the collocation solution is at most (2 |lam dt| c)^k times the initial one. If moreover |lam dt| times that of Q is at most 1/2, solveDahlquistSDC and solveDahlquist both succeed and their first steps differ by at most |u0| |lam dt| |w|_1 M (2 |lam dt| c)^k.", "quantifier": "every number of nodes and sweeps, all matrices (changing from sweep to sweep), every lam dt in the stated range, real or complex", "why_tests_cant": "Convergence in the number of sweeps is a statement about all numbers of sweeps.", "anchors": ["qmat/utils/sdc.py:solveDahlquistSDC", "qmat/qcoeff/__init__.py:solveDahlquist"]}
{"id": "C76", "title": "Convergence of the Dahlquist error with the number of steps", "statement": "With the complex exponential, errorDahlquist of a method whose first p order conditions on linear problems hold up to eps is defined for all large numbers N of steps and at most C |u0| (N^-p + eps), where C and the first N depend only on the number of stages, on p, on bounds of the coefficients and on a bound of |lam tEnd|. Hence every registered Runge-Kutta scheme converges with its declared order up to the rounding of its table, and every collocation method over the real numbers with its declared order. errorDahlquistSDC of any sweeps whose amplification factor agrees with exp to degree q is at most C |u0| N^-q.", "quantifier": "all coefficients, every number of stages, every order, all lam, u0, tEnd with |lam tEnd| bounded, every N from some N0 on; all 38 registered schemes; all node and quadrature types with any number of nodes", "why_tests_cant": "The convergence tests fit a slope through a few numbers of steps and accept a tolerance; convergence is a statement about all large N.", "anchors": ["qmat/qcoeff/__init__.py:errorDahlquist", "qmat/qcoeff/__init__.py:solveDahlquist", "qmat/utils/sdc.py:errorDahlquistSDC", "qmat/qcoeff/butcher.py", "qmat/qcoeff/collocation.py"]}
{"id": "C77", "title": "Leading term and exact rate of the Dahlquist error", "statement": "If the order conditions on linear problems hold exactly up to p >= 1 and c = b^T A^p 1 - 1/(p+1)!, the value of solveDahlquist after N steps is u0 e^Z (1 + c Z^(p+1) N^-p) with Z = lam tEnd, up to C |u0| N^-(p+1). So if c, Z and u0 are not zero, errorDahlquist lies between two positive multiples of N^-p for all large N. The same holds for errorDahlquistSDC with the true order q of the sweeps. In particular, for all 432 combinations on equidistant nodes of the convergence tests, errorDahlquistSDC decreases exactly like N^-q with q the order expected by getOrderSDC, or one less for the ten recorded exceptions.", "quantifier": "all coefficients with exact order conditions, all lam, u0, tEnd with lam tEnd and u0 not zero, every N from some N0 on; all numbers of nodes, quadrature types, sweeps and numbers of sweeps of the tests", "why_tests_cant": "A measured slope cannot exclude another order with a small constant; the bounds from both sides hold for all large N.", "anchors": ["qmat/qcoeff/__init__.py:errorDahlquist", "qmat/qcoeff/__init__.py:solveDahlquist", "qmat/utils/sdc.py:errorDahlquistSDC", "qmat/utils/sdc.py:getOrderSDC", "tests/test_qdelta/test_timestepping.py"]}
{"id": "C78", "title": "The declared order of a collocation method is exact", "statement": "If the nodes are not moved by the rounding of their ends, the order p returned by Collocation.order is the greatest one: the weights integrate every polynomial of degree below p exactly and no polynomial of degree exactly p. The order condition b^T A^k 1 = h^(k+1)/(k+1)! of the test equation holds for k < p and fails for k = p. Over the real numbers, with lam tEnd and u0 not zero, errorDahlquist therefore lies between two positive multiples of N^-p for all large numbers N of steps.", "quantifier": "all node types, all quadrature types, every number of nodes, every interval, every polynomial of degree p; all lam, u0, tEnd with lam tEnd and u0 not zero, every N from some N0 on", "why_tests_cant": "The tests check the moments up to the declared order for a few numbers of nodes and never that the next one fails; the excess of symmetric nodes is only guessed in a comment of the code.", "anchors": ["qmat/qcoeff/collocation.py:96-111", "qmat/nodes.py", "qmat/qcoeff/__init__.py:errorDahlquist"]}
{"id": "C79", "title": "Rounding errors of the barycentric weights, the interpolation matrix and the evaluation", "statement": "In an arithmetic whose operations have relative error at most u (standard model; float64 with u = 2^-53 barring overflow and underflow), whatever the order of summation and multiplication: on m distinct points, if G = gam(3m+3) and G Lambda(t) < 1 with Lambda(t) the Lebesgue function, every computed entry of the row of getInterpolationMatrix at t has relative error at most G (1+Lambda)/(1-G Lambda) to the value of the Lagrange basis polynomial; rows at the points themselves are exact; the columns of ignored duplicates are 0. Evaluation of an interpolant differs from the polynomial by at most ((1+that)(1+gam(n))-1) sum |L_k(t)||p(x_k)|. Without rounding the rounded functions are the exact ones.", "quantifier": "all unit roundoffs u and rounding functions of the standard model, all summation and product orders, all point lists, duplicate modes, weight scalings, times and polynomials of degree below m", "why_tests_cant": "Tests compare with a fixed tolerance at random points; they cannot cover all points, times and summation orders, nor give a bound that depends on the Lebesgue function.", "anchors": ["qmat/lagrange.py:180-187", "qmat/lagrange.py:213-230", "qmat/lagrange.py:244-251", "qmat/lagrange.py:335-354"]}
{"id": "C80", "title": "Rounding errors of the derivative matrices", "statement": "In an arithmetic of the standard model with unit roundoff u, for every order of the operations and m distinct points with (10m+9)u < 1: getDerivativeMatrix (order 1, 2, 'ALL') computes the off-diagonal first derivatives L_k'(x_i) with relative error at most gam(4m+4), the diagonal with error at most gam(5m+3) sum |L_k'(x_i)|, the off-diagonal second derivatives with error at most gam(9m+10) 2|L_k'(x_i)|(1/|x_i-x_k| + sum |L_l'(x_i)|) and their diagonal with error at most gam(10m+9) times the sum of these. Columns of ignored duplicates are 0, and the sum of each computed row is at most gam(m-1) times the sum of the moduli of its off-diagonal entries (constants are differentiated to almost 0).", "quantifier": "all rounding functions of the standard model, all orders of summation and multiplication, all point lists, duplicate modes and weight scalings", "why_tests_cant": "Tests compare with tolerances on a few random point sets; the negative sum trick on the diagonal and the componentwise bounds hold for all points and summation orders.", "anchors": ["qmat/lagrange.py:501-532", "qmat/lagrange.py:180-187", "qmat/lagrange.py:213-230"]}
{"id": "C81", "title": "Rounding errors of the integration matrix", "statement": "In an arithmetic of the standard model: the computed quadrature abscissae differ from the exact ones by at most gam(4)(|h tau| + |mid|); with a rule of K nodes, getIntegrationMatrix is the quadrature of the Lagrange basis at the computed abscissae up to ((1+B)(1+gam(K+3))-1) sum |terms|, where B bounds the relative error of the interpolation rows (C79) at these abscissae; columns of ignored duplicates are 0. If the rule is exact for the degree needed and Lip is a Lipschitz constant of the basis polynomial between computed and exact abscissae, the distance to the integral of the basis polynomial exceeds that by at most gam(4) Lip sum |w h|(|h tau|+|mid|).", "quantifier": "all rounding functions of the standard model, all orders of operations, all point lists, intervals, duplicate modes, quadrature rules", "why_tests_cant": "Tests check polynomials on a few intervals with a tolerance; the bound holds for all intervals, points and rules and separates the three sources of error.", "anchors": ["qmat/lagrange.py:404-438"]}
{"id": "C82", "title": "Butcher tables stored with rounded numbers", "statement": "When the numbers of a registered Butcher table are stored with relative error e (2^-53 when each number is correctly rounded), the row sums and weights are consistent within tol + e K (2 e K for rows), the order conditions of the declared order p (and those of the embedded weights) hold within tol + ((1+e)^p - 1) K, the step for u' = lambda u agrees with exp(z) to order p up to that tolerance, and with e <= 1e-14 no stored table satisfies the conditions of order p+1 within 5e-6. K is 100 except 2000 for SDIRK54, EDIRK43, EDIRK4, ESDIRK53, ARK548L2SAESDIRK, ARK4EDIRK and 500000 for ARK548L2SAERK, whose conditions of order 5 therefore are only certain up to about 6e-10 in float64. The exceptions are those of C34 and C35.", "quantifier": "every registered table, every e >= 0 (<= 1e-14 for sharpness), every stored table with entrywise relative error at most e, every z", "why_tests_cant": "Tests run a few step sizes on one platform; the claim covers every way the literals may be rounded.", "anchors": ["qmat/qcoeff/butcher.py:RK_SCHEMES", "qmat/qcoeff/butcher.py:RK"]}
{"id": "C83", "title": "Rounding errors of the time-stepping matrices", "statement": "In an arithmetic whose operations have relative error at most u: every entry of BE and FE has relative error at most u (zeros exact), for nodes in any order; for nodes increasing from tLeft every entry of TRAP has relative error at most gam(3), the rows of BE, FE and TRAP with dTau sum to node - tLeft within u, u and gam(3) relatively, and the computed BE, FE and dTau of FE are exactly those of increasing nodes moved by at most u (node - tLeft). For tLeft = 0 and nodes that are numbers of the arithmetic BEPAR is exact and TRAPAR and its dTau have relative error at most u.", "quantifier": "all unit roundoffs and rounding functions of the standard model, all node lists, tLeft", "why_tests_cant": "Nodes and roundings are infinitely many; tests compare with fixed tolerances.", "anchors": ["qmat/qdelta/timestepping.py:39-133"]}
{"id": "C84", "title": "Rounding errors of the Dahlquist solver", "statement": "Let the additions, subtractions, multiplications and divisions of solveDahlquist have relative error at most u, weights.dot an error of at most ed times the sum of the moduli of its terms, and let np.linalg.solve be backward stable with constant es. If beta bounds the inverse of I - zQ and q = beta ((1+es)(1+u)^4 - 1)(n + |z||Q|) < 1 then both the solver and the exact one succeed, and after i steps its result differs from R(z)^i u0 by at most ((|R|+kappa)^i - |R|^i)|u0|, kappa = u + |z| |w| beta n/(1-q) ((1+u)^4(1+ed) - 1 + q). If |z||Q| <= 1/2 and all errors are at most e <= 1/(100(n+1)) one can take kappa = e(1 + 60 n(n+1)|z||w|), and if in addition |R| <= 1 the error after N steps is at most 2e(N + 60 n(n+1)|lambda T||w|)|u0|, as long as this factor is at most 1: linear growth in the number of steps. (|.| sums of moduli of entries.) Numbers of steps 0, -1 and below raise ZeroDivisionError, IndexError and ValueError also here.", "quantifier": "every Q and weights, every complex lambda, u0, end time and number of steps, all operations, inner products and solvers satisfying the error bounds", "why_tests_cant": "Tests choose a handful of lambda and step numbers; the rounding behaviour of BLAS and LAPACK differs between machines.", "anchors": ["qmat/qcoeff/__init__.py:QGenerator.solveDahlquist"]}
{"id": "C85", "title": "Rounding errors of spectral deferred corrections", "statement": "solveDahlquistSDC (without monitors) with operations of relative error u, inner products of error ed times the sum of the moduli of their terms and a backward stable np.linalg.solve with constant es. Let beta bound the inverses of I - z QDelta_k, g and m bound |z||QDelta_k| and |z||Q - QDelta_k|, q = beta ((1+es)(1+u)^4 - 1)(n + g) < 1, delta = beta((1+u)^5(1+ed) - 1 + q)/(1-q), r = m beta and r' = m(beta + delta) < 1. Then every step succeeds; the computed node values differ from those of the same exact sweeps by at most n delta (1/(1-r') + m)/(1-r) |v|, whatever the number of sweeps; the collocation problem has exactly one solution and after k > 0 sweeps they are within n (r'^k (1 + beta/(1-r)) + delta/((1-r)(1-r'))) |v| of it; and the solution after i steps differs from R^i u0, R the amplification factor of the collocation method, by at most ((|R|+kappa)^i - |R|^i)|u0| with kappa this bound (value at the last node) or u + |z||w|(((1+u)^4(1+ed) - 1)(beta n/(1-r) + bound) + bound) (weights). If |z||QDelta_k| <= 1/2, |z||Q - QDelta_k| <= 1/8 and all errors are at most e <= 1/(100(n+1)), the node values are within n(4/3^k + 110(n+1)e)|v|. Non-positive numbers of steps and rejected QDelta raise what the exact model raises.", "quantifier": "every Q, sequence of QDelta, weights or last-node update, every complex lambda, initial value, end time, number of steps and sweeps, all operations, inner products and solvers satisfying the error bounds", "why_tests_cant": "Tests observe convergence orders for a few sweeps far above rounding level; a saturation of the error or its growth with the number of sweeps would not be seen.", "anchors": ["qmat/utils/sdc.py:solveDahlquistSDC"]}
{"id": "C86", "title": "The Dahlquist solvers with inexact coefficients", "statement": "Let Q', w' be within eQ and ew of Q, w (sum of the moduli of the differences), beta a bound of the inverse of I - z Q and p = beta |z| eQ < 1. Then I - z Q' is invertible with inverse bounded by beta/(1-p), and the amplification factors of the two methods differ by at most |z|(ew + |w| p) beta/(1-p) n (weights) or p beta/(1-p) n (value at the last node). Consequently solveDahlquist and solveDahlquistSDC, run in inexact arithmetic on the inexact coefficients, stay within ((|R| + sigma + kappa)^i - |R|^i)|u0| of R^i u0, where R is the amplification factor of the EXACT coefficients, sigma the bound above and kappa the rounding bound of C84 or C85. A table stored with relative error e has eQ = e |A| and ew = e |b|; if |z||A| <= 1/4 and all errors are at most e <= 1/(100(n+1)), kappa + sigma may be replaced by e(1 + 126 n(n+1)|z||b|).", "quantifier": "every pair of coefficient sets of the same shape, every complex lambda, initial value, end time, number of steps, all operations, inner products and solvers satisfying the error bounds, every Butcher table and every storage of it", "why_tests_cant": "A test compares one stored table with one tolerance; how an entry that is wrong in its last digits spreads through an implicit stage solve, and that it cannot make a regular system singular, holds for all tables and step sizes or not at all.", "anchors": ["qmat/qcoeff/__init__.py:QGenerator.solveDahlquist", "qmat/utils/sdc.py:solveDahlquistSDC", "qmat/qcoeff/butcher.py"]}
{"id": "C87", "title": "Total error of solveDahlquist against the exponential", "statement": "Let the coefficients of an n-stage method with |A| <= BA, |b| <= Bb satisfy the first p order conditions on linear problems up to eps, let them be stored with relative error e, and let solveDahlquist run in complex arithmetic whose operations and inner products have relative error e and whose np.linalg.solve is backward stable with constant e. If |lam tEnd| <= r, N >= 4(1+BA)r, N >= 100(n+1) and N e <= 1, every one of the N+1 returned values is within |u0|(C (N^-p + eps) + D N e) of u0 exp(lam t), where C and D are explicit and depend on n, p, BA, Bb and r only. As long as N^(p+1) e <= 1 the error is at most (C + D)|u0| N^-p + C|u0| eps, so rounding does not hide the order. This holds for all 38 registered schemes with their declared orders (eps is the rounding of the printed table), for the embedded weights of all of them but ARK548L2SAESDIRK with the declared embedded orders, and for all collocation methods over the real numbers with their declared orders (eps = 0). Rounding real and imaginary parts to float64 is such an arithmetic.", "quantifier": "all coefficients and all ways to store them, every arithmetic satisfying the error bounds, all lam, u0, tEnd with |lam tEnd| <= r, every N in the given range, every step", "why_tests_cant": "The convergence tests look at a handful of step numbers, where one of the two error terms dominates; the bound of their sum for every number of steps and every arithmetic cannot be sampled.", "anchors": ["qmat/qcoeff/__init__.py:QGenerator.solveDahlquist", "qmat/qcoeff/__init__.py:QGenerator.errorDahlquist", "qmat/qcoeff/butcher.py", "qmat/qcoeff/collocation.py"]}
{"id": "C88", "title": "Total error of solveDahlquistSDC against the exponential", "statement": "Let the amplification factor of the sweeps in exact arithmetic agree with exp to order q. For each r there are constants C and N0 such that solveDahlquistSDC, run with N >= N0 steps in complex arithmetic whose operations, inner products and solver have relative error e with N e <= 1, returns N+1 values, each within C|u0|(N^-q + N e) of u0 exp(lam t), whenever |lam tEnd| <= r; C and N0 do not depend on e, on the arithmetic, on lam, u0 or tEnd. With weights of order p and k sweeps with any matrices this holds for q = min(p, k+1), and with the value at the last node, at the end of the step, for q = min(p, k); the former in particular for all collocation methods over the real numbers with their declared orders p. The rounding errors of one step relative to the same sweeps in exact arithmetic are at most 120 n(n+1) e (last node) or e(1 + 170 n(n+1)|z||w|) (weights) for small steps, whatever the number of sweeps (C85_small_rounding).", "quantifier": "all Q, weights and sweep matrices, every arithmetic satisfying the error bounds, all lam, u0, tEnd with |lam tEnd| <= r, every N >= N0, every step", "why_tests_cant": "Convergence tests see a few step numbers in one arithmetic; that rounding adds only N e for every number of steps and of sweeps cannot be sampled.", "anchors": ["qmat/utils/sdc.py:solveDahlquistSDC", "qmat/utils/sdc.py:errorDahlquistSDC"]}
