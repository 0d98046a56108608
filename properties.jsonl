{"id": "C01", "title": "Tree path query returns the path through the closest common ancestor", "statement": "For two nodes of the same rooted tree, the path query terminates, lists exactly the nodes strictly below the closest common ancestor on both sides, each once, and ends with the closest common ancestor. If one argument is an ancestor of the other it is the last node returned.", "quantifier": "every rooted forest (parent and height arrays), every pair of nodes in the same tree", "why_tests_cant": "Trees of every shape and size, and every pair of nodes; the loop has no bound of its own so termination is a claim about all inputs.", "anchors": ["conex/tree_utils.cc:PathInTree", "conex/tree_utils.h:RootedTree"]}
{"id": "C02", "title": "Clique elimination order is a permutation with children before parents", "statement": "The clique order produced by the symbolic analysis lists each input clique exactly once, the parent relation it produces is a rooted forest, every clique comes before its parent, and two cliques that share a variable are in the same tree.", "quantifier": "every list of sorted cliques, every valid-leaf labelling and every choice of root clique", "why_tests_cant": "The greedy spanning tree depends on all pairwise intersections; the number of inputs is unbounded and tie-breaking matters.", "anchors": ["conex/clique_ordering.cc:PickCliqueOrderHelper", "conex/clique_ordering.cc:GetCliqueEliminationOrder"]}
{"id": "C03", "title": "Every variable is eliminated exactly once and every clique is covered", "statement": "After symbolic analysis the supernodes are pairwise disjoint and their union is the set of variables that occur in some clique; each clique is contained in the union of its supernode and separator; the separator and supernode of a clique are disjoint.", "quantifier": "every list of cliques, any root, any valid-leaf labelling", "why_tests_cant": "Fill-in depends on the global structure of overlaps; tests check a handful of clique lists.", "anchors": ["conex/clique_ordering.cc:PickCliqueOrder", "conex/clique_ordering.cc:FillIn"]}
{"id": "C04", "title": "The fill-in pattern is closed under elimination", "statement": "Every separator variable of a clique is eliminated by a strictly later clique, and the whole separator of a clique is contained in (supernode + separator) of the clique that eliminates its first separator variable. Hence the numeric factorization never needs an entry outside the allocated sparsity pattern and the entry lookup never throws.", "quantifier": "every list of cliques, any root, any valid-leaf labelling, every pair of separator variables", "why_tests_cant": "This is the chordal-completion property of the computed pattern and must hold for every overlap structure including cyclic ones.", "anchors": ["conex/clique_ordering.cc:FillIn", "conex/triangular_matrix_workspace.cc:LookupAddress", "conex/triangular_matrix_workspace.cc:S_S"]}
{"id": "C05", "title": "Variable permutation is a bijection", "statement": "When the cliques cover variables 0..n-1, the elimination permutation and its inverse returned by the analysis are mutually inverse bijections of 0..n-1, supernode columns are consecutive in elimination order, and separator positions are strictly increasing.", "quantifier": "every list of cliques covering 0..n-1 whose first clique is non-empty", "why_tests_cant": "Unbounded number of clique lists; an off-by-one would corrupt only some structures.", "anchors": ["conex/supernodal_solver.cc:SupernodesToData", "conex/supernodal_solver.cc:GetData"]}
{"id": "C06", "title": "Symbolic analysis always succeeds on admissible input", "statement": "Building the KKT solver for any list of cliques with non-empty first clique terminates without exception and without out-of-range access; if the first clique is empty it throws.", "quantifier": "every non-empty list of duplicate-free cliques, every matching list of dual variables", "why_tests_cant": "Absence of exceptions, out-of-bounds accesses and infinite loops is a statement about all inputs.", "anchors": ["conex/supernodal_solver.cc:GetData", "conex/supernodal_solver.cc:GetMax", "conex/kkt_solver.cc:SupernodalKKTSolver", "conex/triangular_matrix_workspace.cc:TriangularMatrixWorkspace"]}
{"id": "C07", "title": "Factor storage: distinct matrix entries live at distinct in-range addresses", "statement": "Every entry of the sparsity pattern of the factor has an address inside the allocated buffer, and two different entries never share an address.", "quantifier": "every list of supernode sizes and separators produced by the analysis, every pair of entries", "why_tests_cant": "Aliasing is a property over all pairs of addresses for all structures.", "anchors": ["conex/triangular_matrix_workspace.cc:Initialize", "conex/triangular_matrix_workspace.h:SizeOf"]}
{"id": "C08", "title": "Assembled KKT matrix is the sum of the scattered constraint blocks", "statement": "After Assemble(), KKTMatrix() equals the sum over constraints of the constraint's symmetric block scattered to its variables, provided no constraint is bound in direct-update mode while its supernode has a fill-in variable. Without that proviso the claim is false: for variables {2,3,4},{1,2},{0,1},{0,1,5} a wrong matrix is assembled.", "quantifier": "every list of cliques, every value of every constraint block, every previous content of the storage", "why_tests_cant": "Depends on the overlap structure; the failing structures are rare and were not in the test-suite.", "anchors": ["conex/supernodal_assembler.cc:UpdateBlocks", "conex/supernodal_assembler.cc:BindDiagonalBlock", "conex/kkt_solver.cc:Assemble", "conex/kkt_solver.cc:KKTMatrix"]}
{"id": "C09", "title": "Re-assembly does not depend on what a previous factorization left behind", "statement": "The factor storage after Assemble() is a function of the current constraint blocks only: assembling after any earlier assemble/factor history gives the same matrix as assembling into fresh storage.", "quantifier": "every history of assemblies, factorizations and block values", "why_tests_cant": "Quantifies over histories of the in-place storage.", "anchors": ["conex/kkt_solver.cc:Assemble", "conex/supernodal_assembler.cc:UpdateBlocks"]}
{"id": "C10", "title": "Only the lower triangle of a constraint block is read", "statement": "Two programs whose constraint blocks agree on the lower triangle produce the same KKT matrix. Consequently changing only entry (r,c) with r<c of a quadratic cost has no effect on the solution.", "quantifier": "every clique list, every pair of blocks agreeing on the lower triangle", "why_tests_cant": "Quantifies over all matrices and all structures.", "anchors": ["conex/supernodal_assembler.cc:GetCoeff", "conex/quadratic_cost.cc:UpdateAffineTerm"]}
{"id": "C11", "title": "Block Cholesky factorization is exact", "statement": "In exact arithmetic, if the in-place block Cholesky reports success then L*L^T equals the assembled matrix, L has the allocated sparsity pattern and a positive diagonal.", "quantifier": "every fill-closed block structure, every symmetric matrix with that pattern", "why_tests_cant": "Dimension, pattern and entries are unbounded.", "anchors": ["conex/block_triangular_operations.cc:BlockCholeskyInPlace"]}
{"id": "C12", "title": "The Cholesky KKT solve returns a solution of the KKT system", "statement": "In exact arithmetic, after a successful factorization the in-place solve maps b to x with KKTMatrix()*x = b, in the original variable ordering.", "quantifier": "every clique list covering all variables, every block value for which factorization succeeds, every right-hand side", "why_tests_cant": "Dimension, pattern and entries are unbounded; empty supernodes and forests are corner cases.", "anchors": ["conex/block_triangular_operations.cc:ApplyBlockInverseInPlace", "conex/block_triangular_operations.cc:ApplyBlockInverseOfTransposeInPlace", "conex/kkt_solver.cc:SolveInPlace"]}
{"id": "C13", "title": "Regularized dense LDLT: exact up to the reported pivot regularization", "statement": "In exact arithmetic the regularized LDLT returns P, unit lower triangular L and diagonal D with P^T L D L^T P = A + P^T E P, where E is diagonal, |E_ii| <= 1e-9, every |D_ii| >= 1e-9, and E = 0 when no pivot was regularized. The no-regularization flag is truthful for order >= 2 and not for order 1.", "quantifier": "every symmetric matrix of every order", "why_tests_cant": "All matrices; pivoting gives exponentially many paths.", "anchors": ["conex/RLDLT.h:RLDLT", "conex/RLDLT.h:unblocked"]}
{"id": "C14", "title": "The LDLT KKT solve returns a solution of the (regularized) KKT system", "statement": "In exact arithmetic, with equality constraints present, the block LDLT solve maps b to x with K*x = b where K is the assembled matrix, when no pivot was regularized.", "quantifier": "every fill-closed block structure, every symmetric matrix with that pattern, every right-hand side", "why_tests_cant": "Dimension, pattern and entries are unbounded.", "anchors": ["conex/block_triangular_operations.cc:BlockLDLTInPlace", "conex/block_triangular_operations.cc:SolveInPlaceLDLT"]}
{"id": "C15", "title": "Iterative refinement never harms an exact solve", "statement": "In exact arithmetic, refinement steps leave an exact solution unchanged, and for an inexact factorization each step maps the residual r to r - K*S(r) where S is the factorization's solve.", "quantifier": "every matrix, every linear approximate solver, every number of refinement iterations", "why_tests_cant": "Quantifies over all matrices and iteration counts.", "anchors": ["conex/kkt_solver.cc:SolveInPlace"]}
{"id": "C16", "title": "Right-hand sides are the sum of scattered constraint contributions", "statement": "The assembled AW and AQc vectors and the scalar inner products equal the sum over constraints of each constraint's contribution scattered to its variables, independent of previous content; indices stay in range.", "quantifier": "every history of added constraints, every value of the contributions", "why_tests_cant": "Unbounded number of constraints and overlaps.", "anchors": ["conex/constraint_manager.h:AssembleSchurComplementResiduals", "conex/kkt_solver.cc:Assemble"]}
{"id": "C17", "title": "Programs with an unconstrained variable are rejected, not silently mis-solved", "statement": "The KKT solver's dimension equals the number of distinct variables that occur in constraints, so the dimension check in the in-place solve passes if and only if every program variable and every multiplier occurs in some constraint; otherwise it throws.", "quantifier": "every history of added constraints", "why_tests_cant": "Quantifies over all programs.", "anchors": ["conex/kkt_solver.cc:SolveInPlace", "conex/constraint_manager.h:SizeOfKKTSystem", "conex/supernodal_solver.cc:SupernodesToData"]}
{"id": "C18", "title": "Variable lists are validated exactly", "statement": "Adding a constraint on a list of non-negative variable indices is accepted if and only if the list has no duplicates and all indices are below the number of variables. A negative index is an out-of-bounds write.", "quantifier": "every number of variables and every list of indices", "why_tests_cant": "Unbounded inputs; iff-characterisation.", "anchors": ["conex/constraint_manager.h:IsUnique", "conex/constraint_manager.h:AddConstraint"]}
{"id": "C19", "title": "Equality multipliers get fresh, disjoint, contiguous indices", "statement": "After any sequence of calls on a program with n variables, the multiplier indices of the accepted equality constraints are pairwise disjoint, disjoint from 0..n-1, in order of addition they are exactly n, n+1, ..., one per row, and the KKT size is n plus their number. Setting the number of variables after an equality constraint breaks this, and an equality constraint passed as an lvalue gets no multipliers.", "quantifier": "every sequence of add-constraint and add-equality calls, including rejected ones", "why_tests_cant": "Quantifies over histories.", "anchors": ["conex/constraint_manager.h:AddEqualityConstraint", "conex/constraint_manager.h:SizeOfKKTSystem", "conex/constraint_manager.h:SetNumberOfVariables"]}
{"id": "C20", "title": "Constraint identifiers stay valid", "statement": "The identifier of an accepted constraint keeps denoting that same constraint (same variables, multipliers, class and dimensions; same coefficients unless an update names it) after any later sequence of API calls; calls that report failure leave the program unchanged. The quadratic-cost call reports success even if it adds nothing.", "quantifier": "every sequence of API calls", "why_tests_cant": "Quantifies over histories.", "anchors": ["conex/cone_program.h:AddConstraint", "conex/cone_program.h:UpdateLinearOperatorOfConstraint", "interfaces/conex.cc"]}
{"id": "C21", "title": "Guarded API calls before and after a solve", "statement": "Before the first solve every well-formed C API edit call succeeds. After an initialisation with k >= 1 constraints, every C API call guarded by the program-corruption check fails without effect unless exactly k further constraints have been added since by unguarded calls: the check compares with number-of-constraints + 2 while the solver registers 2 * k + 2 workspaces.", "quantifier": "every sequence of API calls containing a solve that reached initialisation", "why_tests_cant": "Quantifies over histories; tests only edit before solving.", "anchors": ["interfaces/conex.cc:SAFER_CAST_TO_Program", "conex/cone_program.h:InitializeWorkspace"]}
{"id": "C22", "title": "Identifier returned for a rejected sparse LMI", "statement": "The identifier returned by the constraint-creating calls denotes the newly added constraint if the variable list is valid; the sparse LMI call returns an identifier even if the constraint was rejected, and that identifier is later given to another constraint.", "quantifier": "every sequence of API calls and every variable list", "why_tests_cant": "Quantifies over histories and variable lists.", "anchors": ["interfaces/conex.cc:CONEX_AddSparseLMIConstraint", "interfaces/conex.cc:CONEX_NewLinearInequality"]}
{"id": "C23", "title": "Linear cost is the sum of the costs added since the last clear", "statement": "The program's linear cost vector equals the component-wise sum of all costs added since the last clear; a cost of wrong dimension is ignored entirely, and the returned value does not reveal it.", "quantifier": "every sequence of add-cost and clear-cost calls", "why_tests_cant": "Quantifies over histories.", "anchors": ["conex/cone_program.cc:AddLinearCost", "conex/cone_program.h:ClearLinearCosts"]}
{"id": "C24", "title": "Coefficient updates: last write wins, rejected updates are no-ops, Hermitian data stays Hermitian", "statement": "After any sequence of in-range coefficient updates, a coefficient reads as the last value accepted for it; an update is accepted exactly if it names an existing coefficient and keeps diagonal entries real; rejected updates change nothing; matrices of a Hermitian LMI remain Hermitian in every hypercomplex component. A column beyond the variables of a linear inequality and negative LMI or quadratic-cost indices are out-of-bounds writes.", "quantifier": "every sequence of update calls with arbitrary indices and values", "why_tests_cant": "Quantifies over histories and index combinations.", "anchors": ["conex/hermitian_psd.cc:UpdateLinearOperator", "conex/hermitian_psd.h:UpdateAffineTerm", "conex/linear_constraint.cc:UpdateLinearOperator", "conex/soc_constraint.cc:UpdateLinearOperator"]}
{"id": "C25", "title": "Default options and option conversion", "statement": "Conversion of C options to solver options copies every field. After the set-defaults call every option has its documented default except kkt_solver and iterative_refinement_iterations, which keep whatever value the caller's memory had.", "quantifier": "every initial content of the options structure", "why_tests_cant": "Quantifies over uninitialised memory content.", "anchors": ["interfaces/conex.cc:CONEX_SetDefaultOptions", "interfaces/conex.cc:APIConvertSolverConfiguration"]}
{"id": "C26", "title": "Workspace partition is disjoint, in bounds and aligned", "statement": "The per-constraint scratch areas, the statistics area and the system area carved from the single workspace buffer are pairwise disjoint, inside the buffer, and each matrix starts at an even offset (16-byte alignment); for second-order cones this needs order >= 1.", "quantifier": "every list of constraints with every dimension, every iteration limit", "why_tests_cant": "Aliasing and alignment over all lists of sizes.", "anchors": ["conex/workspace.h", "conex/memory_utils.h:get_size_aligned", "conex/newton_step.h:WorkspaceSchurComplement", "conex/linear_workspace.h", "conex/workspace_soc.h", "conex/cone_program.h:InitializeWorkspace"]}
{"id": "C27", "title": "Iteration statistics are written in bounds", "statement": "In every solve that (re)initialises the workspace, per-iteration statistics are written inside their area. In a warm-started solve with a larger iteration limit than at initialisation they overflow into the stored scalings and beyond.", "quantifier": "every sequence of solves with arbitrary options and arbitrary numerical outcomes", "why_tests_cant": "Quantifies over histories of solves.", "anchors": ["conex/workspace.h:WorkspaceStats", "conex/cone_program.cc:Solve", "conex/cone_program.cc:Initialize"]}
{"id": "C28", "title": "Iteration statistics query", "statement": "After a solve with at least one completed iteration, querying statistics with iter in [0, n) returns iteration iter, with iter in [-n,-1] returns iteration n+iter, and any other value is rejected or wraps to a valid index; it never reads outside the recorded iterations.", "quantifier": "every number of completed iterations and every query index", "why_tests_cant": "All integer indices.", "anchors": ["interfaces/conex.cc:CONEX_GetIterationStats"]}
{"id": "C29", "title": "Warm start uses every constraint of the program", "statement": "A cold-started solve runs with every constraint bound to the KKT solver and workspace. A warm-started solve after adding a constraint to an already solved program does not.", "quantifier": "every sequence of add-constraint and solve calls with arbitrary initialisation modes", "why_tests_cant": "Quantifies over histories.", "anchors": ["conex/cone_program.cc:Initialize", "conex/cone_program.cc:Solve"]}
{"id": "C30", "title": "The return value of Solve is truthful", "statement": "When the preconditions on quadratic costs hold, Solve returns true iff the reported status is solved. When they are violated Solve returns true without solving and leaves the status of the previous solve.", "quantifier": "every program state, every option set, every numerical outcome", "why_tests_cant": "Quantifies over states and outcomes.", "anchors": ["conex/cone_program.cc:Solve", "conex/error_checking_macros.h:CONEX_DEMAND"]}
{"id": "C31", "title": "Solve terminates within the iteration limit with consistent status", "statement": "Solve performs at most max_iterations iterations; at exit solved and infeasible flags are never both set; solved implies that the iteration limit was not the reason for stopping and that mu is at most the infeasibility threshold; at a normal exit with at least one completed iteration the reported iteration count is the index after the last completed one and at most max_iterations. A solve that initialises the workspace with max_iterations <= 0 has no defined result.", "quantifier": "every option set and every sequence of numerical outcomes of factorization, line search and norms", "why_tests_cant": "Quantifies over all numerical behaviours (treated as adversarial).", "anchors": ["conex/cone_program.cc:Solve"]}
{"id": "C32", "title": "Centering parameter stays within its limits", "statement": "Clamping yields a value inside [lower, upper] and does not change values already inside; the centering parameter used in each iteration is at most the configured maximum (scaled) whenever the lower limit does not exceed it; otherwise it equals the lower limit.", "quantifier": "every input value, every pair of limits, every iteration", "why_tests_cant": "All real values and histories.", "anchors": ["conex/cone_program.cc:ApplyLimits", "conex/cone_program.cc:Solve"]}
{"id": "C33", "title": "Scaled Newton step is bounded", "statement": "For a Newton direction of norm n the step size s lies in (0,1] and s*n <= sqrt(2); the second-order exponential map and the rational exponential map are strictly positive on the resulting range of eigenvalues.", "quantifier": "every non-negative norm and every eigenvalue", "why_tests_cant": "All real values.", "anchors": ["conex/cone_program.cc:Solve", "conex/exponential_map.cc", "conex/exponential_map_pade.cc"]}
{"id": "C34", "title": "Returned point satisfies the equality constraints", "statement": "In exact arithmetic, for a program with equality constraints A y = b whose KKT factorization is exact, the vector returned by a solve that ended in the scaled branch satisfies A y = b exactly, regardless of the accuracy of the interior-point iterations.", "quantifier": "every program, every iterate, every positive centering parameter and scaling", "why_tests_cant": "Quantifies over all programs and iterates.", "anchors": ["conex/cone_program.cc:Solve", "conex/equality_constraint.cc:ConstructSchurComplementSystem"]}
{"id": "C35", "title": "Returned point of a linear program is feasible", "statement": "In exact arithmetic, if the last Newton direction has infinity norm at most 1 (below 1) then the returned point satisfies all linear inequalities (strictly). The solver also reports solved after exhausting the final centering steps with a larger norm, in which case feasibility is not implied.", "quantifier": "every linear constraint, every positive weight vector, every centering parameter", "why_tests_cant": "All LPs and all iterates.", "anchors": ["conex/linear_constraint.cc:PrepareStep", "conex/cone_program.cc:Solve"]}
{"id": "C36", "title": "Returned dual variable of a linear program satisfies the cost equation", "statement": "In exact arithmetic, for a program with linear constraints only, after a solve that prepares dual variables the returned dual variables x satisfy sum_i A_i^T x_i = b exactly, and after a cold start their lengths are the reported sizes. For a second-order cone a size is reported too, but the values copied were never written.", "quantifier": "every LP, every iterate, every centering parameter and scaling", "why_tests_cant": "All LPs and all iterates.", "anchors": ["conex/linear_constraint.cc:PrepareStep", "conex/cone_program.cc:Solve", "conex/cone_program.h:GetDualVariable"]}
{"id": "C37", "title": "Scaling points never leave the interior of the cone", "statement": "Starting from the identity, after any number of prepare/take-step rounds with arbitrary search directions the scaling point of a linear constraint is positive and that of a second-order cone is in the interior of the cone (exact arithmetic). Preparing dual variables breaks this invariant for later warm starts.", "quantifier": "every sequence of search directions and step sizes", "why_tests_cant": "Quantifies over iteration histories.", "anchors": ["conex/linear_constraint.cc:TakeStep", "conex/soc_constraint.cc:TakeStep", "conex/soc_constraint.cc:PrepareStep"]}
{"id": "C38", "title": "Line search interval is exact", "statement": "The interval returned for a linear constraint is exactly the set of k for which every component of d0 + k*(d1-d0) is within the bound, when no component of d1-d0 is zero; the interval combined over all constraints is the intersection.", "quantifier": "every pair of directions, every bound, every list of constraints", "why_tests_cant": "All real vectors.", "anchors": ["conex/linear_constraint.cc:PerformLineSearch", "conex/linear_constraint.cc:FindMinimumMu", "conex/cone_program.cc:ComputeMuFromLineSearch"]}
{"id": "C39", "title": "Centering parameter from the divergence bound meets the bound", "statement": "If the inverse divergence computation returns a positive value, then the divergence of the scaled spectrum at that value is finite and equals the requested bound, and the scaled norm is below 1; for a positive spectrum the value is the largest positive number with this property. A negative value other than -1 may miss the bound.", "quantifier": "every spectrum summary and every positive bound", "why_tests_cant": "All real parameters; branch selection.", "anchors": ["conex/divergence.cc:DivergenceUpperBoundInverse", "conex/divergence.cc:DivergenceUpperBound"]}
{"id": "C40", "title": "Two-sided inequality preprocessing preserves the feasible set", "statement": "Whenever the result is finite, the equality and inequality systems produced from lb <= A x <= ub have exactly the same solutions as the input in which, on rows with lb <> ub, upper bounds >= 1e8 and lower bounds <= -1e8 are dropped. The result is finite exactly if no used row is zero together with its bound; its rows then have norm 1. With a dropped bound the produced systems accept points the input rejects. The C interface call adds exactly the kept bounds to the program.", "quantifier": "every matrix, every pair of bound vectors, every point", "why_tests_cant": "All real data and points.", "anchors": ["conex/linear_constraint.cc:PreprocessLinearInequality"]}
{"id": "C41", "title": "Quadratic epigraph encodes the quadratic cost", "statement": "The second-order cone constraint generated for a quadratic cost Q >= 0 holds at (x,t) if and only if t >= x^T Q x / 2.", "quantifier": "every positive semidefinite Q, every x and t", "why_tests_cant": "All real data.", "anchors": ["conex/quadratic_epigraph.cc", "conex/quadratic_cone_constraint.cc"]}
{"id": "C42", "title": "Dropping zero-diagonal variables of a quadratic cost is lossless", "statement": "For positive semidefinite Q the cost restricted to variables with positive diagonal equals the full cost at every point; for indefinite Q it may differ.", "quantifier": "every symmetric Q and every point", "why_tests_cant": "All real matrices.", "anchors": ["interfaces/conex.cc:NonZeroSubMat"]}
{"id": "C43", "title": "Hypercomplex matrix algebra laws", "statement": "Matrix multiplication over the reals, complex numbers and quaternions is associative; conjugate transposition reverses products for all four algebras; the octonion product is norm-multiplicative; the Jordan product of Hermitian matrices is commutative and Hermitian; the quadratic representation is x*y*x in the associative cases; the trace inner product is symmetric.", "quantifier": "all matrices of all orders over each algebra", "why_tests_cant": "All dimensions and entries; a single wrong sign in the multiplication table breaks some triple.", "anchors": ["conex/jordan_matrix_algebra.cc", "conex/jordan_matrix_algebra.h"]}
{"id": "C44", "title": "Second-order cone algebra", "statement": "The square root squares to its argument, the quadratic representation satisfies det(Q(x)y) = det(x)^2 det(y) and equals 2x(xy)-(xx)y, it maps the interior of the cone to itself, and the exponential is in the interior.", "quantifier": "all vectors of all dimensions", "why_tests_cant": "All dimensions and entries.", "anchors": ["conex/soc_constraint.cc"]}
{"id": "C45", "title": "Schur complement blocks equal A^T Q(w) A", "statement": "The blocks computed by the linear, second-order-cone, and quadratic-cone constraints equal the defining formula A^T Q(w) A (up to the documented factor), so equivalent constraint types generate the same Newton system; the accumulate mode adds to previous content for linear constraints but not for quadratic-cone constraints.", "quantifier": "every constraint matrix, every interior weight, every previous content", "why_tests_cant": "All real data.", "anchors": ["conex/linear_constraint.cc:ConstructSchurComplementSystem", "conex/soc_constraint.cc:ConstructSchurComplementSystem", "conex/quadratic_cone_constraint.cc:ConstructSchurComplementSystem"]}
{"id": "C46", "title": "Elimination ordering and chordality test", "statement": "For every non-empty graph the elimination ordering is a permutation of the vertices ending in a vertex of maximal degree, and it is a perfect elimination ordering whenever the graph is chordal (every cycle on four or more vertices has a chord). The perfect-ordering test accepts exactly the matrices whose given order is perfect. For symmetric 0/1 matrices the chordality test accepts exactly the chordal graphs, which are exactly the graphs with a perfect elimination ordering. With other weights the chordality test errs in both directions, and asking a rejected graph for its chordless path can read out of bounds. The empty graph is undefined behaviour. The maximum-degree query returns the vertices of maximal row sum except vertex 0.", "quantifier": "every graph", "why_tests_cant": "All graphs.", "anchors": ["conex/elimination_ordering.cc"]}
{"id": "C47", "title": "Hermitian scaling update is a congruence", "statement": "For the associative algebras the geodesic update of a Hermitian scaling matrix W with Hermitian slack S equals X W X^* with X = c I + k W S, hence is Hermitian and stays positive semidefinite whatever S is. The step of a constraint replaces W by Y W Y* with Y = T^2, T = I + X/4 + X^2/32 and X = s (WS + e I) for its step size s and identity weight e.", "quantifier": "all Hermitian W and S of all orders", "why_tests_cant": "All dimensions and entries.", "anchors": ["conex/exponential_map.cc:DoGeodesicUpdateScaled", "conex/hermitian_psd.cc:TakeStep"]}
{"id": "C48", "title": "Complementarity gap identity for linear programs", "statement": "At any iterate of a linear constraint, slack times dual equals mu * (n - ||d||^2), so the duality gap reported from the centering parameter is an upper bound when both points are feasible.", "quantifier": "every iterate", "why_tests_cant": "All real data.", "anchors": ["conex/linear_constraint.cc:PrepareStep", "conex/cone_program.cc:Solve"]}
{"id": "C49", "title": "Cholesky success characterises positive definiteness", "statement": "In exact arithmetic the block Cholesky factorization, and the Factor() step of the KKT solver without equality constraints, report success if and only if the assembled matrix is positive definite.", "quantifier": "every fill-closed block structure / every admissible clique list, every symmetric matrix with that pattern", "why_tests_cant": "All matrices and structures.", "anchors": ["conex/block_triangular_operations.cc:BlockCholeskyInPlace", "conex/kkt_solver.cc:Factor"]}
{"id": "C50", "title": "Every program that can be built can be initialised", "statement": "For every program reached by any sequence of API calls (number of variables set before constraints) whose first constraint has at least one variable, initialisation of a solve succeeds, the KKT solver receives duplicate-free variable lists whose multiplier tails match, and all indices are below the KKT size. If the first constraint has no variable, initialisation throws.", "quantifier": "every sequence of API calls", "why_tests_cant": "Quantifies over histories.", "anchors": ["conex/cone_program.cc:Initialize", "conex/constraint_manager.h", "conex/kkt_solver.cc"]}
{"id": "C51", "title": "Warm start as the first solve", "statement": "A warm-started solve of a program that was never initialised completes no iteration and does not report a solution; when its first factorization succeeds it reads scalings that were never written.", "quantifier": "every program, every option set with a non-zero initialisation mode, arbitrary numerical outcomes", "why_tests_cant": "The result depends on uninitialised memory, so a test sees one arbitrary value; the claim is about all outcomes.", "anchors": ["conex/cone_program.cc:Solve", "conex/cone_program.cc:Initialize", "conex/workspace.h:WorkspaceStats"]}
{"id": "C52", "title": "Centering parameter chosen without line search", "statement": "For a positive spectrum the chosen parameter is positive, keeps the largest distance of the scaled eigenvalues from one below 1, and either is the largest positive number whose divergence equals the bound or, if no positive number meets the bound, minimises the largest distance. If the inverse fails, the smallest eigenvalue is not positive and the trace is positive, the parameter is positive and its squared distance is within a factor 3/2 of the smallest possible one.", "quantifier": "every finite spectrum and every positive bound", "why_tests_cant": "All real spectra of every length; branch selection and optimality over all alternatives.", "anchors": ["conex/cone_program.cc:ComputeMuFromDivergence", "conex/divergence.cc"]}
{"id": "C53", "title": "Programs built by calls are well formed", "statement": "A program of linear, second-order cone, Hermitian matrix (real, complex, quaternion), equality and quadratic cost constraints reached by any sequence of API calls has consistent bookkeeping: every inequality and every cone is in the list of constraints that take steps, variable lists have the lengths of their constraints, multipliers belong to exactly one constraint and lie behind the cost coefficients, and the variables and multipliers that occur are exactly those of the KKT system.", "quantifier": "every sequence of API calls; number of variables set before constraints, every variable covered, first constraint nonempty, outside the case of C08", "why_tests_cant": "Quantifies over call histories.", "anchors": ["conex/constraint_manager.h", "conex/cone_program.h:Program", "interfaces/conex.cc"]}
{"id": "C54", "title": "Returned point is suboptimal by at most mu times the number of inequalities", "statement": "In exact arithmetic, for a program of linear inequalities, second-order cones, equalities and convex quadratic costs, if the last Newton direction has infinity norm at most 1 then the objective value of the returned point exceeds that of every feasible point by at most the final centering parameter times the number of inequalities plus twice the number of cones (over the scalings).", "quantifier": "every such program, every option set, every feasible point", "why_tests_cant": "Compares with all feasible points of all programs.", "anchors": ["conex/cone_program.cc:Solve", "conex/linear_constraint.cc", "conex/equality_constraint.cc", "conex/quadratic_cost.h"]}
{"id": "C55", "title": "Cold-started solves complete", "statement": "In exact arithmetic a cold-started solve of a consistent program of linear, second-order cone, Hermitian matrix (real, complex, quaternion), equality and quadratic cost constraints returns without exception and without reading unwritten or out-of-range memory; if the KKT system cannot fail to factor it hands back a point of the size of the cost vector. In QR mode the program must be regular (C70).", "quantifier": "every such program, every option set without prepared dual variables", "why_tests_cant": "Absence of undefined behaviour on all inputs and iteration counts.", "anchors": ["conex/cone_program.cc:Solve", "conex/kkt_solver.cc", "conex/linear_constraint.cc"]}
{"id": "C56", "title": "Norms and Newton blocks of Hermitian constraints", "statement": "At every scaling point reached from the identity, the squared norm reported for a Hermitian constraint over the reals, complex numbers or quaternions is the squared Frobenius norm of I + F^* S F for a factor W = F F^*; the lower triangle of the Newton block holds <A_r, W A_c W> (added to the previous content unless initialised), and the block is positive semidefinite, and positive on every combination of constraint matrices that does not vanish. For octonions the block is symmetric.", "quantifier": "every order, every list of Hermitian constraint matrices, every history of directions and steps", "why_tests_cant": "All dimensions, data and iteration histories.", "anchors": ["conex/hermitian_psd.cc:PrepareStep", "conex/hermitian_psd.cc:ConstructSchurComplementSystem"]}
{"id": "C57", "title": "Reported step norms and slack eigenvalues of cones are exact", "statement": "For second-order and quadratic cone constraints at an interior scaling point, norminfd is the largest modulus and normsqrd the sum of squares of the eigenvalues of the search direction; the slack report gives the extreme eigenvalues, squared norm and trace of the weighted slack, and its smallest eigenvalue is positive exactly when the slack is in the interior of the cone (exact arithmetic).", "quantifier": "every constraint, every interior scaling point, every y and affine weight", "why_tests_cant": "All real data and all dimensions.", "anchors": ["conex/soc_constraint.cc:PrepareStep", "conex/soc_constraint.cc:GetWeightedSlackEigenvalues", "conex/quadratic_cone_constraint.cc:PrepareStep", "conex/quadratic_cone_constraint.cc:GetWeightedSlackEigenvalues"]}
{"id": "C58", "title": "A Newton step of a cone constraint reproduces the cost", "statement": "If y solves the Newton equations built from the block of a second-order or quadratic cone constraint, the dual point Q(sqrt w)(e+d) satisfies A^T x = k b in the Jordan inner product, its product with the slack is 2 - normsqrd, and norminfd < 1 implies that slack and dual point are in the interior of the cone (exact arithmetic).", "quantifier": "every constraint, every interior scaling point, every cost", "why_tests_cant": "All real data and all dimensions.", "anchors": ["conex/soc_constraint.cc:ConstructSchurComplementSystem", "conex/soc_constraint.cc:PrepareStep", "conex/quadratic_cone_constraint.cc:ConstructSchurComplementSystem"]}
{"id": "C59", "title": "Returned point satisfies the second-order cone constraints", "statement": "In exact arithmetic, if the last Newton direction has infinity norm at most 1 (below 1) then the slack of the returned point lies in every second-order cone (in its interior). A solve reported as solved satisfies them when the options rule out the exit after the final centering steps and the tolerance is at most 1.", "quantifier": "every program with second-order cones, every option set, every starting state that is re-created or sound", "why_tests_cant": "All programs, dimensions, data and iteration histories.", "anchors": ["conex/soc_constraint.cc:PrepareStep", "conex/soc_constraint.cc:TakeStep", "conex/cone_program.cc:Solve"]}
{"id": "C60", "title": "Complementarity gap identity for second-order cone programs", "statement": "At the returned point of a program of linear inequalities and second-order cones there are dual variables that satisfy the cost equation exactly; the inner product of slack and dual of a cone is 2 mu (1 - |d|^2), the dual lies in the cone if the last direction has infinity norm at most 1, and the difference of the objectives is mu times the rank minus the squared norm of the direction (over the scalings, exact arithmetic).", "quantifier": "every such program, every option set, every handed back solve", "why_tests_cant": "All programs, dimensions, data and iteration histories.", "anchors": ["conex/soc_constraint.cc:ConstructSchurComplementSystem", "conex/soc_constraint.cc:PrepareStep", "conex/cone_program.cc:Solve"]}
{"id": "C61", "title": "With line search enabled, cone programs never reduce the centering parameter", "statement": "No line search is implemented for second-order cones (the default fails), so the search over a program that contains one fails, the previous centering parameter is kept and the fallback is skipped: every iteration of the solve uses the largest centering parameter 1e-15 + maximum_mu that the options allow, whatever target was set.", "quantifier": "every program with a second-order cone, every option set with line search, every starting state", "why_tests_cant": "All programs, options and iteration counts; a test only sees an inaccurate optimum of one program.", "anchors": ["conex/constraint.h:PerformLineSearch", "conex/cone_program.cc:ComputeMuFromLineSearch", "conex/cone_program.cc:Solve"]}
{"id": "C62", "title": "Lanczos estimates lie in the spectrum", "statement": "Every value that the eigenvalue estimation returns for a scaling point W and a slack S is a Rayleigh quotient of the scaled slack, so the reported norminfd, which is the largest modulus of an estimate of the scaled direction, never exceeds the operator norm, its square never exceeds the reported normsqrd (centering weight 1), and lambda_min/lambda_max lie between the extreme eigenvalues; when the iteration stops early, every returned value is an eigenvalue up to a residual of size 1e-3 (real) or eps*norm (hypercomplex).", "quantifier": "every order, positive definite scaling point (for hypercomplex constraints: every reachable one), symmetric/Hermitian slack, start vector, iteration count, over reals, complex numbers and quaternions", "why_tests_cant": "All matrices, start vectors (random in the program) and iteration counts; a test compares a few random matrices with a tolerance.", "anchors": ["conex/approximate_eigenvalues.cc:AsymmetricLanczos", "conex/jordan_matrix_algebra.cc:ApproximateEigenvalues", "conex/psd_constraint.cc:PrepareStep", "conex/psd_constraint.cc:GetWeightedSlackEigenvalues", "conex/hermitian_psd.cc:PrepareStep"]}
{"id": "C63", "title": "Limits of the estimated step norms of semidefinite constraints", "statement": "The estimation is defined exactly for a positive number of iterations and a non-zero start vector (hypercomplex: and a non-zero image when more than one iteration is made). A true operator norm below 1 puts the slack into the cone. It is not true that the start vector chosen by PsdConstraint is always non-zero (a feasible slack can give 0/0), that a reported norminfd below 1 puts the slack into the cone, or that the octonion heuristics reflect feasibility (norminfd 0 and positive lambda_min for an infeasible slack).", "quantifier": "every order, scaling point, slack and start vector for the definedness and the implication; explicit instances for the refutations", "why_tests_cant": "The definedness condition is an equivalence over all inputs; the failing slacks are special and random tests do not meet them.", "anchors": ["conex/approximate_eigenvalues.cc:AsymmetricLanczos", "conex/psd_constraint.cc:PrepareStep", "conex/hermitian_psd.cc:PrepareStep", "conex/hermitian_psd.cc:GetWeightedSlackEigenvalues"]}
{"id": "C64", "title": "Aggregated slack spectrum and the centering parameter without line search", "statement": "The four numbers that GetWeightedSlackEigenvalues gathers over all constraints are the sum of squares, the sum, the least and the greatest of the eigenvalues of all scaled slacks Q(w^1/2)(k c - A y), provided one eigenvalue is at most 30000 and one at least -30000 (the start values of the running minimum and maximum); their number is the rank the solver uses, for every program built by calls. Hence without line search the new centering parameter is, when all eigenvalues are positive, a positive value with all scaled slacks within distance one of the identity that meets the divergence bound and is the largest such value, or minimises the distance if none meets it. If all eigenvalues exceed 30000, the reported least eigenvalue is 30000 and is not an eigenvalue.", "quantifier": "every rectangular program of linear, second-order cone, equality and quadratic cost constraints, every interior state, weights, variables and configuration without line search", "why_tests_cant": "All programs, states and eigenvalue distributions; tests use one divergence bound on a few random programs, and never slacks of magnitude 30000.", "anchors": ["conex/cone_program.cc:GetWeightedSlackEigenvalues", "conex/cone_program.cc:ComputeMuFromDivergence", "conex/cone_program.h:Rank", "conex/linear_constraint.cc:GetWeightedSlackEigenvalues", "conex/soc_constraint.cc:GetWeightedSlackEigenvalues"]}
{"id": "C65", "title": "Slacks, spectral sums and norms of Hermitian constraints; series of the geodesic update", "statement": "The negative slack of a Hermitian constraint is A y - k c in every component of every entry. In every state reached from the identity the scaling matrix is F F* and the reported trace and squared Frobenius norm are those of F* S F with the slack S = k c - A y. At the identity the norm reported for an octonion constraint is the squared norm of I - S. GeodesicUpdate returns the first twelve terms sum_i (W S)^i W / i! of the exponential series.", "quantifier": "every order, data, weight and variables; reals, complex numbers and quaternions for the reports and the series, octonions for the slack and the norm at the identity; every state reached by preparations and steps", "why_tests_cant": "All orders, data and reachable states; the tests of the repository use random matrices of one order and a tolerance.", "anchors": ["conex/hermitian_psd.cc:ComputeNegativeSlack", "conex/hermitian_psd.cc:GetWeightedSlackEigenvalues", "conex/hermitian_psd.cc:PrepareStep", "conex/exponential_map.cc:GeodesicUpdate"]}
{"id": "C66", "title": "Semidefinite programs: what a returned point and a reported norm certify", "statement": "In exact arithmetic, for a program with real symmetric, complex or quaternion Hermitian semidefinite constraints (with linear inequalities, second-order cones, equalities and convex quadratic costs): at the returned point there are dual matrices X = 2V - t V S V with V positive definite that satisfy the cost equation; the inner product of slack and dual of a matrix constraint of order m is mu (m - |d|^2) over the scalings, and slack and dual are positive semidefinite if |d| <= 1. The reported norm of the direction is a Lanczos estimate. If the estimates are accurate up to eps and the norm reported for the last iteration plus eps is at most 1, then all matrix slacks are positive semidefinite (definite if below 1 and the slack is not zero) and the objective exceeds that of every feasible point by at most mu times (inequalities + 2 cones + matrix orders) over the scalings; a success reported under options that rule out the exit after the final centering steps implies feasibility. Without accurate estimates this fails: a solve can report success with a norm of at most 1 at a point that violates the matrix constraint. With line search enabled the centering parameter never changes.", "quantifier": "every such program, every option set, every handed back solve, every outcome of the eigenvalue estimates, every feasible point", "why_tests_cant": "All programs, orders, data, iteration histories and feasible points; tests see a few random matrices for which the estimates happen to be good.", "anchors": ["conex/hermitian_psd.cc:PrepareStep", "conex/hermitian_psd.cc:TakeStep", "conex/hermitian_psd.cc:ConstructSchurComplementSystem", "conex/cone_program.cc:Solve"]}
{"id": "C67", "title": "Feasible objective: returned vector, dual certificate, and its use as an objective", "statement": "GetFeasibleObjective returns, for a program with linear inequalities, second-order cones, Hermitian semidefinite constraints, equalities and quadratic costs, the sum over all constraints of the adjoint of their coefficients applied to half of the identity of the cone (one half per row, (1, 0, ..., 0) for a second-order cone, I/2 for a matrix); it has one entry per unknown of the linear system. These dual variables are in the interior of all cones, so the objective is bounded above on the feasible set by the inner product of the affine terms with them. Without equality constraints a solve called with this vector minimises its negative. With equality constraints the vector is longer than the cost vector: the solve drops it silently and minimises zero.", "quantifier": "every well-built program with consistent data, every earlier numeric state, every feasible point", "why_tests_cant": "All programs, sizes and data; the tests call it on two programs without equalities.", "anchors": ["conex/cone_program.cc:GetFeasibleObjective", "conex/cone_program.cc:Solve", "conex/cone_program.cc:AddLinearCost", "conex/kkt_solver.cc:Assemble"]}
{"id": "C68", "title": "Dense linear matrix inequality constraint: Newton block, interior, reports", "statement": "For a dense linear matrix inequality C - sum y_i A_i >= 0 with symmetric data: the negative slack is sum y_i A_i - k C; the assembled block has the entries <A_c, W A_r W> in the lower triangle, the linear terms <A_c, W> and <C, W A_c W> and the constants <C, W> and <C, W C W>, stored or added, and nothing else is written; data and W are unchanged. In every history of resets, assemblies, queries, preparations and steps, where a step directly follows its preparation and its size times the operator norm of the direction is at most sqrt 2, the step can be taken (the denominator of the rational exponential is invertible) and W stays symmetric positive definite. The block is then positive semidefinite and positive on non-vanishing combinations. The reported trace, Frobenius norm and squared norm are those of the slack scaled by a factor of W. The affine step turns W into a matrix whose inner products with the A_i are given by the Newton system. With the step size computed from the estimated norm W may become indefinite in the first step, and a query of the slack eigenvalues between preparation and step changes the step.", "quantifier": "every order, number of matrices, symmetric data, every history of calls on the constraint", "why_tests_cant": "All orders, data and histories of any length; the failing steps need a start vector of the estimate orthogonal to an extreme eigenvector, or a call order the tests do not use.", "anchors": ["conex/dense_lmi_constraint.cc:ConstructSchurComplementSystem", "conex/dense_lmi_constraint.cc:ComputeNegativeSlack", "conex/dense_lmi_constraint.cc:TraceInnerProduct", "conex/psd_constraint.cc:PrepareStep", "conex/psd_constraint.cc:TakeStep", "conex/psd_constraint.cc:GetWeightedSlackEigenvalues", "conex/psd_constraint.cc:SetIdentity"]}
{"id": "C69", "title": "Column-wise sparse triangular operations factor and solve, for supernodes with columns", "statement": "For every pattern of block columns closed under fill-in in which each supernode has a column: SetConstant sets exactly the entries of the pattern; the sparse column-wise Cholesky factorization accesses only stored entries, succeeds exactly when the symmetric matrix read from the lower triangle is positive definite, and then leaves the factor L with positive diagonal and A = L L^T, the same as the block factorization of the same memory; ApplyInverse solves L y = b and ApplyInverseOfTranspose solves L^T y = b, unless L has a zero on the diagonal; factoring and both solves give A x = b. A copy has the same entries. Exceptions: assignment with = does not change the left side; with an empty supernode in the middle the factorization and ApplyInverse of an identity matrix read outside of a block, with one at the end the factorization throws; a right-hand side shorter than the matrix is written out of bounds. Increment adds to exactly one entry and throws for a nonzero increment outside of the pattern.", "quantifier": "every fill-closed pattern, all real entries and right-hand sides", "why_tests_cant": "All patterns and matrices; the tests use few random ones without empty supernodes.", "anchors": ["conex/supernodal_solver.cc:CholeskyInPlace", "conex/supernodal_solver.cc:ApplyInverse", "conex/supernodal_solver.cc:ApplyInverseOfTranspose", "conex/supernodal_solver.cc:SetConstant", "conex/supernodal_solver.cc:ToDense", "conex/supernodal_solver.cc:LowerTriangularSuperNodal", "conex/supernodal_solver.cc:TriangularMatrixColumnOperations", "conex/supernodal_solver.h:SparseTriangularMatrix"]}
{"id": "C70", "title": "QR mode: exact systems for regular programs", "statement": "With the solver mode CONEX_QR_FACTORIZATION, factoring always reports success, even for the zero matrix; a solve throws exactly when the length of the right-hand side is wrong, does no refinement, and its result solves the assembled KKT system without the regularisation of the pivots, so the equality constraints hold exactly for the vector that Solve hands back. The KKT matrix is nonsingular in every iteration if the quadratic costs are convex, no direction leaves all constraint functions, quadratic costs and equalities unchanged, and the equality rows are independent; cold-started solves of such programs hand back a point of the size of the cost vector. (QR solutions of nonsingular symmetric systems are taken as exact.)", "quantifier": "every regular program of linear, cone, Hermitian, equality and quadratic cost constraints, every option set without prepared dual variables", "why_tests_cant": "All programs, iterates and iteration counts; one test uses this mode.", "anchors": ["conex/kkt_solver.cc:Factor", "conex/kkt_solver.cc:Solve", "conex/kkt_solver.cc:SolveInPlace", "conex/cone_program.cc:Solve"]}
{"id": "C71", "title": "Maximising a linear program through the C interface", "statement": "A client that creates a program, sets n > 0 variables, passes groups of rows A y <= b (CONEX_AddDenseLinearConstraint) or lb <= A y <= ub (CONEX_AddLinearInequalities) and calls CONEX_Maximize with objective b on cold-start options without prepared dual variables and without QR mode (the default options qualify) gets a point of length n, provided the rows span the space or there is an equality. The constraint set of the program is exactly what was passed (bounds of size 10^8 and more do not count). If the last reported norm is at most 1, and there are no equalities or their pivots were not regularised, the point satisfies everything that was passed, and no other such point has an objective value larger by more than (number of inequalities) * mu / (product of the scalings). The objective replaces that of earlier calls; one of the wrong length is silently ignored, leaving the zero objective. Programs whose constraints are all added without a variable list are never affected by the fault of C08.", "quantifier": "every number of variables, every list of groups with matching sizes and no used zero row with zero bound, every such option set and numeric start", "why_tests_cant": "Relates the client's numbers to the returned point through preprocessing, symbolic factorization and all iterations, for all data.", "anchors": ["interfaces/conex.cc:CONEX_Maximize", "interfaces/conex.cc:CONEX_AddDenseLinearConstraint", "interfaces/conex.cc:CONEX_AddLinearInequalities", "conex/cone_program.cc:Solve", "conex/constraint_manager.h:AddConstraint"]}
{"id": "C72", "title": "Maximising a conic program built entry by entry through the C interface", "statement": "A client that creates a program over n > 0 variables, adds rows as in C71, creates second-order cones (CONEX_NewLorentzConeConstraint) and matrix inequalities over the reals, complex numbers or quaternions (CONEX_NewLinearMatrixInequality), and writes their coefficients one by one with the identifier it got back, meets no error; the constraint set of the program is given by the last value written to each coefficient (zero if none, the mirrored entry of a matrix conjugated), provided the last variable and the affine term got a coefficient. CONEX_Maximize on options as in C71 then returns a point of length n if the constraints span the space or there is an equality. If the last reported norm is at most 1 (with matrix inequalities: minus the error of the eigenvalue estimates), and there are no equalities or their pivots were not regularised, the point satisfies everything, and no other such point has an objective value larger by more than (rows + 2 per cone + order per matrix) * mu / (product of the scalings). The proviso is needed: if the coefficients of the last variable are never written because they are zero, no solve returns a result (the Schur complement is assigned from a smaller matrix).", "quantifier": "every number of variables, every list of groups of rows, cones and matrices and every order of writes, every such option set and numeric start", "why_tests_cant": "Relates each sequence of entry-wise writes to the returned point through identifiers, resizing, symbolic factorization and all iterations, for all data.", "anchors": ["interfaces/conex.cc:CONEX_NewLorentzConeConstraint", "interfaces/conex.cc:CONEX_NewLinearMatrixInequality", "interfaces/conex.cc:CONEX_UpdateLinearOperator", "interfaces/conex.cc:CONEX_UpdateAffineTerm", "interfaces/conex.cc:CONEX_Maximize", "conex/soc_constraint.cc:ConservativeResizeHelper", "conex/hermitian_psd.cc:UpdateLinearOperator"]}
{"id": "C73", "title": "When the eigenvalue estimates are exact, and when they divide by zero", "statement": "The symmetric recurrence ApproximateEigenvalues(A, r0, n) and the uncompressed variant (polynomials in the monomial basis) return values inside the spectrum of A, respectively of W S for positive definite W and symmetric S. With as many iterations as rows their values are exactly the eigenvalues, no more and no fewer; the same holds for the compressed variant when it completes that many iterations. The uncompressed variant returns the tridiagonal matrix of the compressed one whenever that one completes all its iterations, and conversely if no squared off-diagonal entry is below 1e-6; this needs no assumption on the matrices. With more iterations than rows, or from an eigenvector with two or more iterations, the symmetric and the uncompressed variants divide by zero, while the compressed one returns the eigenvalue of that eigenvector and stops.", "quantifier": "every dimension, matrix, start vector and number of iterations, in exact arithmetic", "why_tests_cant": "The tests run a few random matrices with rounding, which hides the division by an exact zero, and compare the variants on those samples only.", "anchors": ["conex/approximate_eigenvalues.cc:37-135", "conex/approximate_eigenvalues.cc:147-171", "conex/approximate_eigenvalues.cc:178-256"]}
{"id": "C74", "title": "Factorization object: sign, rank-one updates, solve and reconstruction", "statement": "After compute on a symmetric matrix the object RLDLT represents (reconstructedMatrix) that matrix up to a diagonal perturbation of at most 1e-9, which is zero for order at least 2 unless the object reports regularization, and isPositive/isNegative are equivalent to definiteness of the represented matrix. A rank-one update of an object without zero pivots that stores only finite values adds exactly sigma w w^T; for a positive definite object it succeeds with a positive definite result exactly when the updated matrix is positive definite, so any sequence of updates and downdates through positive definite matrices is exact. solve is exact for the represented matrix if no pivot has modulus at most the smallest normal double; in particular after compute with isPositive and any number of updates with sigma >= 0. Zero pivots are skipped, so every solvable system is solved, and the result is zero if all pivots are negligible. Not guaranteed: the sign is stale after a downdate, a downdate through a singular leading block stores values that are not finite, and the first update of a default-constructed object is lost exactly when w(0) = 0 and w is not zero.", "quantifier": "every order n >= 1, symmetric matrix, object, update vector, weight and sequence of updates, in exact arithmetic", "why_tests_cant": "The property ranges over all matrices, pivot orders and update sequences; no test of the repository calls rankUpdate, reconstructedMatrix or the sign queries.", "anchors": ["conex/RLDLT.h:418-473", "conex/RLDLT.h:475-483", "conex/RLDLT.h:509-518", "conex/RLDLT.h:535-645", "conex/RLDLT.h:672-697"]}
{"id": "C75", "title": "Matrix algebra helpers: orthogonalization, comparisons, eigenvalues through the minimal polynomial", "statement": "Over the reals, complex numbers and quaternions Orthogonalize divides by zero exactly when the columns are (right) linearly dependent; otherwise its result has orthonormal columns and the input is the result times an upper triangular matrix with positive diagonal. Octonions are rejected. IsEqual and IsHermitian accept exactly equal and exactly Hermitian matrices, and accept no matrix with an entry that is off by more than 1e-8 and 1e-12. The Jordan powers used by MinimalPolynomial are the ordinary powers. If a monic polynomial of degree d annihilates the matrix, every real eigenvalue is among the values returned by Eigenvalues; if in addition the matrix is Hermitian and its first d powers are linearly independent, the returned values are exactly the eigenvalues. Not guaranteed: with dependent powers, as for the identity matrix of order two, either basic least-squares solution adds a value that is no eigenvalue.", "quantifier": "every order, number of columns, matrix and least-squares solution over the three associative algebras, in exact arithmetic", "why_tests_cant": "The repository tests use a few random matrices, which have independent columns and distinct eigenvalues with probability one.", "anchors": ["conex/jordan_matrix_algebra.cc:17-58", "conex/jordan_matrix_algebra.cc:179-201", "conex/jordan_matrix_algebra.cc:212-238"]}
{"id": "C76", "title": "Maximising a convex quadratic conic program entered through the C interface", "statement": "A client as in C72 that also creates quadratic costs (CONEX_NewQuadraticCost) and writes the entries of their matrices one by one (CONEX_UpdateQuadraticCostMatrix), symmetric in the end, meets no error, and the program that CONEX_Maximize solves minimises the negative of b.y - 1/2 sum y'Qy, where each entry of Q is the last value written. If every Q is positive semidefinite, the line search is on and rescaling is off, CONEX_Maximize returns a point of length n under the conditions of C72 (the costs count towards spanning the space), and if the last norm certifies the inequalities the point satisfies everything and no other such point has a value larger by more than (rows + 2 per cone + order per matrix) * mu. Without inequalities the point is an exact maximiser, whatever norm is reported and whatever the step limits. Not guaranteed: with the default options a client with a cost gets the value for success while no solve runs and no point is written; and a client that writes the upper triangle only gets another objective, because only the lower triangle is read.", "quantifier": "every number of variables, every list of rows, cones, matrices and costs and every order of writes, every such option set and numeric start", "why_tests_cant": "Relates each sequence of entry-wise writes to the optimality of the returned point for all data; the tests solve a few fixed programs.", "anchors": ["interfaces/conex.cc:CONEX_NewQuadraticCost", "interfaces/conex.cc:CONEX_UpdateQuadraticCostMatrix", "interfaces/conex.cc:CONEX_Maximize", "conex/quadratic_cost.cc", "conex/cone_program.cc:Solve"]}
{"id": "C77", "title": "Bookkeeping of the Python class", "statement": "A client of the Python class Conex(m), m > 0, that adds rows (AddLinearInequality), dense matrix inequalities, sparse ones on distinct variables below m, creates matrix inequalities that are filled in later, updates coefficients and solves, gets from GetDualVariables one array per constraint of the program with exactly as many entries as the multiplier of that constraint has, and after a solve with the options of the class all of them are written. Solve always sets the two options that quadratic costs need and keeps the others. Maximize returns no more numbers than the objective has, which must have the length the object expects; a sparse matrix inequality on no variables, on a variable the object does not have or with another number of matrices is an exception. ComputeErrors reports the sum of the inner products if at most the first constraint is a vector. Not guaranteed: Maximize with the options of the class and a quadratic cost returns the status of success and a vector of ones; the object made without an argument has no variables and every solve with rows throws; after NewLorentzConeConstraint, NewLinearInequality or NewQuadraticCost GetDualVariables raises an exception; after AddLinearInequalities with bounds that do not count, or a rejected sparse matrix inequality, the arrays belong to other constraints and one that is too short is overrun; with two vectors only the last inner product is reported, and the lists of eigenvalues of later calls contain those of earlier ones. GetIterationStats returns one record per recorded iteration, in order, after a solve; before the first solve it is undefined.", "quantifier": "every m > 0 and every sequence of method calls, every option set and outcome of the solves", "why_tests_cant": "The tests of the Python interface run a few fixed sequences and never mix the methods whose bookkeeping differs.", "anchors": ["interfaces/python/ConexProgram.py:58-69", "interfaces/python/ConexProgram.py:90-114", "interfaces/python/ConexProgram.py:115-169", "interfaces/python/ConexProgram.py:171-242", "interfaces/python/ConexProgram.py:244-277", "interfaces/conex.cc:114-122"]}
{"id": "C78", "title": "Eigenvalue estimate for Hermitian hypercomplex matrices stays in the numerical range", "statement": "For a Hermitian real, complex or quaternion matrix A, every value returned by ApproximateEigenvalues(A, r0, num_iter) lies between any lower and upper bound of the quadratic form of A on unit vectors; the number of values is num_iter, and one iteration returns the Rayleigh quotient of r0. The recurrence has no stopping test: if r0 is an eigenvector, two or more iterations divide by zero, and so does any number of iterations if r0 is zero.", "quantifier": "all numbers of components 1, 2, 4, all orders, Hermitian matrices, start vectors and iteration counts", "why_tests_cant": "The test compares sorted eigenvalues for a few random matrices and start vectors with as many iterations as rows; start vectors that are eigenvectors have probability zero there.", "anchors": ["conex/jordan_matrix_algebra.cc:238-276", "conex/jordan_matrix_algebra.h:46-67"]}
{"id": "C79", "title": "Splitting of patterns into blocks finds exactly the connected components", "statement": "The search for components that the MATLAB interface uses to split matrix inequalities ends; the components partition the nodes and are sorted by size, and two nodes share a component exactly if a path of entries joins them. For symmetric patterns the blocks are the components of the rows with an entry, and the completed pattern consists of exactly the joined pairs. Without symmetry this is false.", "quantifier": "all orders and patterns (symmetric ones for the blocks)", "why_tests_cant": "The MATLAB helper is not run by the test suite, and a search that misses a node fails only for particular graph shapes.", "anchors": ["interfaces/matlab/util/BinaryPsdCompletion.m:1-64"]}
{"id": "C80", "title": "Closure of the mask of the MATLAB interface, and what it loses", "statement": "If some row of A meets every given column, the closure loop ends and returns exactly the columns reached from the given columns and from the rows with a nonzero right-hand side by passing through rows. If rows are symmetric and meet all entries of the affine term, BuildMask ends with disjoint blocks that keep the affine term, the rows with a nonzero right-hand side and every row of which one entry is kept, and they are the finest such blocks. Without that premise it is false: given columns that no row meets are dropped, the loop may stop before reached columns are found because it compares counts, and BuildMask puts indices that only the affine term couples into different blocks and leaves out blocks in which only the affine term has entries.", "quantifier": "all numbers of rows, columns and orders, all patterns of A, b, c and given columns; for the refutations one pattern each", "why_tests_cant": "The MATLAB helper is not run by the test suite; usual problems have variables in every entry of the affine term, so that the lost entries do not show.", "anchors": ["interfaces/matlab/util/BuildMask.m:1-34", "interfaces/matlab/util/BuildMask.m:63-83"]}
