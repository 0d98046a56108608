# Formal model of conex: design

Subject: the C++ sources in `/repo/conex` and `/repo/interfaces/conex.cc`, read
as text.  Everything under `/verif/rocq/theories` is a hand written Gallina
model of that text plus theorems about the model.

## Trusted base

* The Coq 8.16.1 kernel (and the VM, used through `vm_compute` for concrete
  examples and refutation witnesses).
* The reading of the C++ text into Gallina.  Every model definition carries a
  comment with file and lines, and says which simplifications were made.
* `Print Assumptions` is run after every property theorem (files
  `theories/Prop_*.v`).  Two classes:
  * *symbolic* theorems (graph, layout, bookkeeping, control flow): "Closed
    under the global context";
  * *numeric* theorems over the real numbers: the axioms of the Coq standard
    library reals, that is `ClassicalDedekindReals.sig_forall_dec`,
    `ClassicalDedekindReals.sig_not_dec` and
    `FunctionalExtensionality.functional_extensionality_dep` (where
    `Rpower`, `exp`, `sqrt` are used also `Classical_Prop.classic`, which the
    standard library's analysis uses).
  No axiom of our own, no axiom of another library.

## What is modelled, and how

| C++ file | model file | level |
|---|---|---|
| `tree_utils.cc` | `TreeModel.v` | function by function, `while` with fuel, fuel exhaustion is a distinct outcome |
| `clique_ordering.cc` | `CliqueModel.v` | function by function; C++ `.at` failures are the outcome `Throw`, unchecked out-of-range accesses the outcome `UB` |
| `supernodal_solver.cc` (analysis part), `kkt_solver.cc` (labels) | `SupernodeModel.v` | function by function |
| `supernodal_solver.cc` (`TriangularMatrixOperations`, column and entry access), `supernodal_solver.h` (`SparseTriangularMatrix`) | `SparseModel.v` | column by column over R; accesses outside a block are the outcome `UB`; a pivot that is not positive and a division by zero are the outcome `None` |
| `triangular_matrix_workspace.cc` | `TriWorkspaceModel.v` | function by function, addresses are explicit offsets |
| `supernodal_assembler.cc`, `kkt_solver.cc: Assemble, KKTMatrix` | `AssemblerModel.v` | generic in the scalar type, memory explicit |
| `RLDLT.h` (`unblocked`, `compute`), Eigen `LLT` and triangular solves | `DenseModel.v` | over R (exact arithmetic), entry by entry |
| `RLDLT.h` (sign, `updateInPlace`, `rankUpdate`, `_solve_impl`, `reconstructedMatrix`) | `RldltModel.v` | over R, lower triangle; a stored value that is not finite is the outcome `None`; `rcond` and the L1 norm are left out |
| `block_triangular_operations.cc` | `BlockModel.v` | over R (exact arithmetic), on the same explicit storage |
| `kkt_solver.cc` (`Factor`, `Solve*`, right-hand sides), `constraint_manager.h: AssembleSchurComplementResiduals` | `KktModel.v` | over R; the QR mode is in `ConcreteBackend.v` |
| `constraint_manager.h`, `cone_program.h` (class `Program`), coefficient updates of the constraint classes | `ProgramModel.v` | state machine; data over R |
| `interfaces/conex.cc` | `ApiModel.v` | state machine over API calls; a run ends at an escaping exception; the numeric part of a solve is an arbitrary outcome |
| `linear_constraint.cc: PreprocessLinearInequality` | `PreprocessModel.v` | over R, division by zero explicit |
| `workspace.h`, `memory_utils.h`, `newton_step.h`, `*_workspace*.h` | `LayoutModel.v` | offsets over nat |
| `cone_program.cc: Solve` and its helpers | `SolveModel.v` | function by function; the operations of the constraints and of the KKT solver are an arbitrary record of functions (`backend`) |
| `cone_program.cc: GetFeasibleObjective`, the first part of `Solve` with an objective | `FeasibleModel.v` | over R, on top of `ConcreteBackend.v` |
| `linear_constraint.cc` | `LinearModel.v` | over R; numbers with infinities and NaN in the line search |
| `interfaces/conex.cc: CONEX_Maximize`, `cone_program.cc: Solve` with an objective | `ClientModel.v` | on top of `ConcreteBackend.v` |
| `equality_constraint.cc`, `quadratic_cost.h`, `kkt_solver.cc` behind the operations used by `Solve` | `ConcreteBackend.v` | over R; programs of linear, second-order cone, Hermitian (real, complex, quaternion), equality and quadratic cost constraints (the cone operations are those of `SocModel.v` and `JordanModel.v`; the eigenvalue estimates of a Hermitian constraint are arbitrary results of an `environment`); the QR mode takes the decomposition as an argument (C70); octonion, `DenseLMIConstraint` and quadratic cone constraints excluded |
| `divergence.cc` | `DivergenceModel.v` | over R with explicit failure for sqrt of negative and division by zero |
| `soc_constraint.cc`, `quadratic_cone_constraint.*`, `quadratic_epigraph.cc`, block of `linear_constraint.cc` in both modes, `interfaces/conex.cc: NonZeroSubMat` | `SocModel.v` | over R, function by function; NaN of a square root and an unset affine term are distinct outcomes; printing and unused buffers left out |
| `jordan_matrix_algebra.cc`, `exponential_map.cc`, `exponential_map_pade.cc`, `hermitian_psd.*`, step functions of `psd_constraint.cc` | `JordanModel.v` | over R, component matrices as functions; random matrices not modelled; LU solve of the rational map as a relation |
| `approximate_eigenvalues.cc` (compressed variant), the recurrence of `jordan_matrix_algebra.cc` and the reports `norminfd`, `lambda_min`, `lambda_max` built on them in `psd_constraint.cc` and `hermitian_psd.cc` | `LanczosModel.v` | over R; division by zero and square roots of negative numbers are a distinct outcome; the eigenvalues of the tridiagonal matrix (Eigen) by their contract; the random start vector is arbitrary |
| `approximate_eigenvalues.cc` (symmetric and uncompressed variants, called from tests only) | `EstimateModel.v` | over R; same outcomes as `LanczosModel.v`; the last, uninitialised entry of `beta_v` is not read by Eigen and left out |
| `jordan_matrix_algebra.cc` (`IsEqual`, `IsHermitian`, `Orthogonalize`, `MinimalPolynomial`, `Roots`, `Eigenvalues`; called from tests only) | `AlgebraModel.v` | over R; division by a zero norm is a distinct outcome; `colPivHouseholderQr().solve` and `EigenSolver` by their contracts |
| `jordan_matrix_algebra.cc` (`ApproximateEigenvalues` without a weight; called from tests only) | `SymmetricModel.v` | over R; division by zero is a distinct outcome |
| `interfaces/matlab/util/BinaryPsdCompletion.m` | `ComponentModel.v` | patterns as boolean functions, indices from zero |
| `interfaces/matlab/util/BuildMask.m` (blocks of one semidefinite cone; not the reduced data) | `MaskModel.v` | only zero patterns; loops with fuel |
| `dense_lmi_constraint.*`, and `psd_constraint.*` with its workspace | `DenseLmiModel.v` | over R; all matrices are `n x n`; the constraint as one object with `W`, `temp_1`, `temp_2`; the LU solve of the rational exponential as a relation; the estimated norm through `LanczosModel.v` |
| `elimination_ordering.cc` | `EliminationModel.v` | function by function; integer matrix entries |
| `interfaces/python/ConexProgram.py` (class `Conex`) | `WrapperModel.v` | exceptions end the client; arrays by their shapes; the eigenvalues in `ComputeErrors` left out |

Not modelled: floating-point rounding (numeric theorems are about exact
arithmetic; NaN/inf only where a comment says so), Eigen's internals (blocked
variants, QR, SVD and products are taken by their mathematical contract; the
unblocked LLT and the triangular solves are spelled out in `DenseModel.v`), printing, the `JacobiSolver` of `jordan_matrix_algebra.cc` (lines 278-376, called from tests only), the MATLAB wrapper (except the two helpers in the table) and the SWIG layer of the Python one, the build, and
the test code.

## Conventions

* `int` indices are `nat` when the code guarantees non-negativity, `Z` when a
  negative sentinel occurs.  Overflow of `int` is not modelled (sizes are
  assumed representable); this is a stated simplification.
* Partial operations live in an outcome type `res A = Ok a | Throw | UB |
  Diverge`: `Throw` is a C++ exception, `UB` an unchecked out-of-range access
  or similar undefined behaviour, `Diverge` exhaustion of the fuel of a loop.
  Theorems of the form "never fails" are `exists r, f x = Ok r /\ ...`.
* The shipped library is compiled with `-DNDEBUG` (`interfaces/Makefile`);
  asserts and `#ifndef NDEBUG` checks are therefore not part of the behaviour.
* Specifications are in files `Spec_*.v` and do not mention the model's
  helpers.  Model files contain no proofs.  Property files contain the final
  statements, examples that hypotheses are satisfiable, and
  `Print Assumptions`.

## Per property

* C01: loop with fuel; prove termination within the sum of depths and the
  result against an independent "ancestor" relation.
* C02: invariant of the greedy loop (visited set, stack, unvisited nodes have
  no intersection with popped nodes), fuel sufficiency by a measure.
* C03, C04: invariant of the fill-in loop per variable: nodes carrying the
  variable have a parent carrying it or are the current owner; conclude by
  acyclicity of the forest.
* C05: permutation list from the concatenation of disjoint supernodes.
* C06: composition of the above; the empty-first-clique case throws.
* C07: offsets of blocks, injectivity of column-major addressing.
* C08, C09, C10: memory as a function of addresses; loop invariant over cliques in reverse
  order; refutation witness evaluated by the VM.
* C11, C12, C14: dense semantics of the block storage; right-looking
  factorization invariant; forward and backward substitution.
* C13: induction on the pivot step for the in-place algorithm.
* C49: a failing pivot yields a direction of non-positive curvature.
* C15: algebra over an abstract linear solver.
* C16, C17: fold over constraints; counting of distinct variables.
* C18-C25: state machine over lists of API calls, invariants by induction.
* C50: the program invariant implies the input condition of C06.
* C26: offsets as prefix sums.
* C27-C32, C51: invariant of the solve loop for an arbitrary `backend`; a session
  is any sequence of API calls and returned solves; `ToyBackend.v` gives concrete
  runs for the examples and the warm-start refutations.
* C33: real inequalities for the step size; the exponential maps as matrix functions,
  positivity through self-adjointness in the inner product of the scaling point.
* C34, C35, C36, C48, C53-C55, C59-C61, C66: the solve loop instantiated with `ConcreteBackend.v`;
  algebra on the Newton system over finite sums; `SocLinks.v` connects the lists of
  coefficients of a cone with the spin algebra, `HermLinks.v` those of a Hermitian
  constraint with the matrix algebra.  `ConexRun.v`, `SquareRun.v`, `ConeRun.v` and
  `HermRun.v` give concrete runs for the examples.
* C66: a positive definite matrix is `F F*` (`HermFactor.v`); the direction `I + F* S F`
  bounds slack and dual (`HermBound.v`, `HermCone.v`), and so does the pencil
  `W S W - l W` that the estimates are about; traces give one accurate estimate
  (`HermEstimate.v`); the inner product of positive semidefinite matrices is not
  negative (`HermPairing.v`).
* C67: the state after `SetIdentity` spelled out per constraint; weak duality constraint by
  constraint; `FeasibleRun.v` is a program with all kinds of constraints.
* C68: the dense constraint is linked to the Hermitian one of order 0 (`DenseLmiProofs.v`); numerical
  radius gives operator norm, which gives invertibility of the denominator and positivity of the
  rational exponential.
* C69: the entries before and after each column operation through `view` of the block memory
  (`SparseProofs.v`); a Cholesky factor is unique.
* C70: in QR mode the decomposition is an argument `env_qr` of the model; a solve is `Ok` only if its
  vector solves the system exactly, otherwise `UB` stands for "not modelled". `qr_solves` (exact on
  nonsingular symmetric matrices) is a hypothesis of the theorems that need it, shown satisfiable by
  elimination on the normal equations (`QrFacts.v`). `ConexRegular.v` shows the KKT matrices nonsingular.
* C71: all constraints share the variables and own their multipliers, so a multiplier is eliminated by its own
  constraint (`PrivateFacts.v`), which rules out the fault of C08; the rest is C34, C35, C40, C54, C55 applied
  to the program a client builds (`ClientProofs.v`, `ClientRun.v`).
* C72: the writes are followed by their effect on the last written values (`ConicWrites.v`), the identifiers
  by the position of the container (`ConicProofs.v`); then C55, C60, C66 (`ConicRun.v`).
* C76: as C72; a cost adds its form to the objective (`conic_objective`), and without inequalities the bound
  of C54 needs no norm (`outcome_near`).
* C77: invariant over the methods: the list of shapes matches the containers one by one (`WrapperProofs.v`).
* C78: instance of the abstract recurrence of C62 without a weight (`SymmetricProofs.v`).
* C79: invariant of breadth-first search (`ComponentProofs.v`).
* C80: the closure loop is monotone if rows meet all given columns (`MaskProofs.v`); masks grow from round to round, and at the end they are closed under rows (`MaskLoop.v`); counterexamples otherwise.
* C37, C44, C57, C58: the spin algebra of a semidefinite bilinear form (`SocAlgebra.v`),
  with Cauchy-Schwarz; functional calculus through the two eigenvalues; exponentials
  as limits of the series in the algebra.
* C38, C39, C52: real arithmetic with explicit failure outcomes.
* C40, C41, C42: real arithmetic on finite sums.
* C43, C47, C56: the sign/index tables are shown to implement the Cayley-Dickson algebras
  (`Spec_Hyper.v`); matrix identities over an abstract algebra with conjugation
  (`HyperFacts.v`).
* C62, C63: the recurrence over an abstract inner product space builds an orthonormal basis in
  which the tridiagonal matrix is a compression (`LanczosProofs.v`), hence every estimate is a
  Rayleigh quotient; `RealFactor.v` factors a positive definite matrix to compare with `normsqrd`.
* C73: in a space of dimension `d` an orthonormal family of `d` elements is complete (`EstimateProofs.v`), so a
  run of that length compresses nothing; polynomials stand for pairs of columns (`EstimateColumns.v`), under
  which the uncompressed recurrence is the compressed one without its threshold.
* C74: the invariant of the update loop, `L D L^T` plus the remaining outer product divided by `alpha`
  (`RldltProofs.v`); positivity of every `alpha` by testing the quadratic form on leading subspaces.
* C75: Gram-Schmidt over an algebra with conjugation keeps a triangular change of basis in both directions
  (`GramSchmidt.v`); Horner's scheme divides the polynomial by a possibly complex root (`MinimalProofs.v`).
* C64: invariant of the loop over the constraints; the rank through a permutation of the
  registered constraints (`ConexSpectrum.v`).
* C65: the factor `F` of the reached scaling point turns traces of `W S` into traces of
  `F* S F`; the geodesic series by the invariant `term (i+2) = Q(W) Q(S) term i`
  (`JordanReports.v`).
* C45: algebra over finite sums; the blocks of second-order and quadratic cones are
  instances of one statement about the form.
* C46: invariant of the maximum cardinality search (each vertex is chosen with maximal
  weight); chordless paths with low interior; 0/1 counting for the clique test.

Every property is expressible at the level of the model; the numeric ones only
in exact arithmetic (rounding is out of scope, see above).
