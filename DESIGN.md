# Formal model of PANSFEM2: design

Everything is in `rocq/theories` (Coq 8.16.1). Each area has

* `...Model.v`: definitions transcribed from `/repo/src`, each with the file and lines it transcribes, no proofs;
* `...Spec.v`: notions used only to state theorems (independent of the model's helpers);
* `...Proof.v`, `...Main.v`: proofs;
* `Prop....v`: the property theorems (closed by `exact`), concrete examples, `Print Assumptions` under each theorem.

Theorem names start with the property's id. `_partial`: holds of the code only in the
restricted form stated, the full statement is in `properties.jsonl` and below.
`_refuted`: the property is false of the faithful model, a witness is given.

## Conventions and simplifications

* **Faults are outcomes.** `Res.v` defines `res A := Ok a | Fail f`; `f` is `AssertFail` (a failing `assert`, or an
  exception such as that of `std::vector(-1)`), `OutOfBounds` (unchecked index outside a container: undefined
  behaviour), `DivByZero` (the exact quotient does not exist; the C++ produces inf or NaN), `Uninit` (use of an
  indeterminate value), `OutOfFuel` (the bound the model puts on a loop which the source does not bound). A theorem
  saying `= Ok ...` therefore also proves absence of faults.
* **Scalars.** Sparse and dense containers are polymorphic in the scalar type (any type, any operations, where the
  theorem says so; so they hold bit for bit for floating point). Numerical code is modelled in exact arithmetic over
  Coq's reals, determinants over an arbitrary commutative ring or field. **Rounding is not modelled.**
  Square roots, `exp`, `tanh`, `pow`, `cos`, `sin` are the real functions.
* **Integers.** C++ `int` is `nat` or `Z` without overflow.
* **Containers.** `std::vector` is a list; aliasing between the arguments of one call is not modelled (the routines
  are called with distinct objects in the samples). Copy constructors and destructors are not modelled.
* **Templates.** Element routines are generic in the shape function class and in the quadrature class; the theorems
  quantify over both or name the ones needed.
* **Loops** are structural recursion or folds in the source's order. Parallel loops: `ParModel.v` (interleavings) for the
  OpenMP product of CSR.h; elsewhere the sequential reading.
* **Tolerances and output.** Convergence messages printed to `std::cout` are not modelled.
* **Files** are lists of characters; the operating system is not modelled.

## What is modelled

| source | modelled | not modelled |
|---|---|---|
| LinearAlgebra/Models/CSR.h, LILCSR.h | all | stream output |
| LinearAlgebra/Models/Matrix.h, Vector.h | all arithmetic, constructors, determinant, inverse, transpose, reshaping | stream output, destructors, self assignment |
| LinearAlgebra/Solvers/CG.h | all 16 functions | console output |
| LinearAlgebra/Solvers/LU.h | all | |
| LinearAlgebra/Solvers/Lanczos.h | all | |
| FEM/Controller/*.h | all: assembling, boundary conditions, shape functions, quadrature | |
| FEM/Equation/General.h | Area, Volume, CenterOfGravity, ElementVector (both), weak spring, LagrangeInterpolation, its derivative, InterpolateNodalFromElemental (both), InterpolateElementalFromNodal (both) | |
| FEM/Equation/Numeric.h | NumericIntegrationOnLine | |
| FEM/Equation/PlaneStrain.h, PlaneStress.h, Solid.h | all (theorems do not cover every one, see below) | |
| FEM/Equation/HeatTransfer.h, ReactionDiffusion.h, Advection.h, Truss.h, Homogenization.h | all (theorems do not cover every one, see below) | |
| FEM/Equation/Stokes.h, NavierStokes.h | all | |
| FEM/Equation/Beam.h, Shell.h | all | |
| Optimize/Filter/*.h | all; members set by the constructors and `UpdateBeta` are arguments | |
| Optimize/Solver/OC.h, MMA.h, CONLIN.h | all | console output |
| PrePost/Mesher/SquareMesh.h, SquareAnnulusMesh.h, AnnulusMesh.h, SquareCircleAnnulusMesh.h, GrandStructure.h | all | |
| PrePost/Mesher/Delaunay.h | all but the angles (getangle), which are written and never read | |
| PrePost/Export/ExportToVTK.h, PrePost/Import/*.h | all; numbers through a format record | a file that cannot be opened; locale |

Not modelled at all: the sample programs under `/repo/sample` except the time loops of `sample_heattransfer_dynamic.cpp` and `sample_reactiondiffusion.cpp` (`ThetaModel.v`) and the analysis in the density samples under `sample/optimize` (`TopModel.v`) with the set-up and the loop of `sample_optimize_density_oc.cpp` (`LoopModel.v`) and the homogenization sample (`CellModel.v`) and the two truss samples (`TrussModel.v`) and the level set sample (`LevelModel.v`), the plane strain sample (`PlaneModel.v`), the load stepping sample `sample_totallagrange.cpp` (`NewtonModel.v`), the static heat and solid samples `sample_heattransfer_static.cpp`, `sample_linear.cpp` (`StaticModel.v`), the beam sample (`FrameModel.v`) and the static advection-diffusion sample (`DriftModel.v`); the call sequences of the others guided the statements.

## Trusted base

* Coq's kernel (8.16.1), with no kernel check switched off, and no axiom of our own.
* The axioms `Print Assumptions` lists under each theorem. All belong to the standard library. Classes used below:
  * **closed**: no axiom;
  * **F**: `functional_extensionality_dep` only;
  * **R**: the real numbers: `ClassicalDedekindReals.sig_forall_dec`, `functional_extensionality_dep`
    (and, where marked R+, `ClassicalDedekindReals.sig_not_dec`);
  * **RC**: R+ and `Classical_Prop.classic` (through Coquelicot);
  * anything else is spelled out.
* The reading of the C++ source recorded in the comments of the model files.

## Properties


### C01 LILCSR behaves as a finite map with default 0 (proved)

After any sequence of set(i,j,v) calls on a LILCSR(rows,cols), get(i,j) returns the value most recently set at (i,j), or T() if none was; set returns true exactly when (i,j) had been set before; every row keeps at most one entry per column. Quantifier: all sizes, all histories of in-range set calls, all positions, any value type.

*Model and method.* `SparseModel.v` transcribes LILCSR's vector of rows of (column,value) pairs; `set` histories are lists of calls folded over the empty matrix. Invariant: the row list is a finite map in insertion order; the value returned by `get` is that of the last `set`. All histories, any scalar type; column index unchecked in code and unrestricted in the theorem.

* `C01_lil_is_map` (PropSparse.v; closed): after any sequence of [set] calls on a fresh LILCSR, [get] returns the value written last (zero if none), for every position of the matrix; the flags returned by the calls tell exactly whether the position had been written before; each row keeps one slot per column. The column is not checked by the code and is unrestricted here.

### C02 CSR behaves as a finite map and keeps its storage well formed (proved)

After any sequence of in-range set calls on CSR(rows,cols), get returns the latest value or T(); indptr is monotone with rows+1 entries ending at the number of stored entries, column indices of each row are strictly increasing, and no access leaves the arrays. Out-of-range rows are undefined behaviour. Quantifier: all sizes, all histories of set calls, all positions, any value type.

*Model and method.* `SparseModel.v` transcribes the three arrays of CSR, with `set` inserting by `lower_bound`. Invariant by induction over histories: monotone `indptr`, strictly increasing columns in each row, length agreement. All histories from an empty matrix, and one call on any well-formed matrix.

* `C02_csr_is_map` (PropSparse.v; closed): the same for CSR, whose [set] keeps [indptr]/[indices]/[data] a well-formed compressed row structure with strictly increasing columns.
* `C02_csr_set_step` (PropSparse.v; closed): C02, one call on an arbitrary well-formed CSR: [set] cannot fault on a valid row, keeps the structure well formed, changes exactly one entry, and stores one more entry exactly when the position was not stored.

### C03 LILCSR to CSR conversion preserves the matrix (proved)

CSR(A) built from any LILCSR A whose rows have distinct columns is a well formed CSR with get(i,j) equal to A.get(i,j) for every position, and although the constructor reorders A's storage, A.get is unchanged for every position. Quantifier: all LILCSR values with distinct columns per row, all positions.

*Model and method.* The constructor is modelled with its in-place sort of the source. Proved by characterising the sorted rows. Includes the effect on the source, which the constructor sorts in place.

* `C03_lil_to_csr` (PropSparse.v; closed): building a CSR from a LILCSR succeeds, keeps every entry, produces a well-formed structure storing the same number of entries, and leaves the source (which is sorted in place) denoting the same matrix.

### C04 CSR to LILCSR and back is the identity (proved)

Converting any well formed CSR to LILCSR and back gives exactly the same indptr, indices and data. Quantifier: all well formed CSR values.

*Model and method.* Composition of the two conversion models; equality of the three arrays. Array-level identity.

* `C04_csr_lil_csr_identity` (PropSparse.v; closed): CSR -> LILCSR -> CSR gives back the very same arrays.

### C05 Both sparse formats are observationally equivalent (proved)

Running the same sequence of set calls on a LILCSR and on a CSR of the same size gives the same return values and the same get results everywhere. Quantifier: all histories of set calls.

*Model and method.* Both refine the same map; the products follow from C06. get/flags for any history; products over the reals.

* `C05_formats_agree` (PropSparse.v; R): the two formats are interchangeable. The same sequence of [set] calls gives the same flags, the same [get] results and, when the columns are in range, the same matrix-vector products (over the reals).

### C06 Sparse matrix times vector is the mathematical product (proved)

For a well formed CSR (or LILCSR with distinct columns per row) with all column indices in range and a vector of length cols, (A*x)[i] equals the sum over all columns j of A.get(i,j)*x[j]. Quantifier: all matrices, sizes and vectors (exact arithmetic).

*Model and method.* Products are folds in source order; shown equal to the finite sum of `get i j * x j`. Exact arithmetic (reals).

* `C06_spmv_csr` (PropSparse.v; R): the matrix-vector product of both formats is the textbook product with the matrix reported by [get] (exact arithmetic).
* `C06_spmv_lil` (PropSparse.v; R)

### C07 The OpenMP sparse product does not depend on the schedule (proved)

Under every assignment of rows to threads and every interleaving of the threads' individual loads, multiply-adds and stores, the parallel CSR product terminates with the same vector as the sequential loop, and no two threads access the same output element. Quantifier: all schedules, thread counts, interleavings and matrices.

*Model and method.* `ParModel.v`: a small-step interleaving semantics of the `omp parallel for` body (load, multiply-add, store per row) with arbitrary distribution of rows over threads. Invariant over all reachable states; every terminal state holds the sequential result. All row distributions, team sizes and interleavings; arbitrary scalar operations, so also bit-for-bit for floating point. Sequentially consistent memory, justified by race freedom.

* `C07_parallel_spmv` (PropSparse.v; closed): the parallel product. For every distribution of the rows over any number of threads and every interleaving, with arbitrary (also non-associative, e.g. floating-point) addition and multiplication: no thread faults, no two threads ever access the same result location, every run ends, no run gets stuck before all rows are done, and the final vector equals that of the sequential loop.

### C08 Sparse sums, differences and scalar products are entrywise (proved)

For matrices of equal size with possibly different sparsity patterns, (A+B).get = A.get+B.get, (A-B).get = A.get-B.get, (c*A).get = c*A.get and (A/c).get = A.get/c at every position, in both formats. Quantifier: all pairs of well formed matrices, all positions.

*Model and method.* Entrywise refinement of the merge loops and scalar loops. Both formats, exact arithmetic; division needs a non-zero scalar.

* `C08_csr_add_sub` (PropSparse.v; R): [+] and [-] of two matrices of the same dimensions are entrywise, for both formats, whatever the two sparsity patterns; different dimensions abort.
* `C08_lil_add_sub` (PropSparse.v; R)
* `C08_scalars` (PropSparse.v; R): C08, scalars: multiplication and division by a scalar are entrywise and keep the sparsity structure.

### C09 Renumbering numbers exactly the free degrees of freedom (proved)

Renumbering keeps every -1 entry, gives the remaining entries the numbers 0,1,...,n-1 in node order without gaps or repetition, and returns n, the number of free entries; applying it twice changes nothing. Quantifier: all nested node-to-dof tables.

*Model and method.* `AssemblyModel.v`; induction over the node table: the numbers handed out are exactly 0..n-1, in order, each once. All tables.

* `C09_renumbering` (PropAssembly.v; closed): Renumbering keeps the shape and every constrained entry, gives the free entries the numbers 0,...,n-1 in node order, each exactly once, and returns n, the number of free entries; doing it again changes nothing.

### C10 Dirichlet conditions are imposed and never unknowns (proved)

After SetDirichlet with any in-range list, each listed dof is -1 and holds the last value listed for it, all other dofs are untouched; after Renumbering and Disassembling of any solution vector the listed dofs still hold those values. Quantifier: all displacement tables, all condition lists with repetitions and any order, all solutions.

*Model and method.* Composition SetDirichlet / Renumbering / Disassembling. Both SetDirichlet overloads, followed by Renumbering and Disassembling.

* `C10_dirichlet` (PropAssembly.v; R): after SetDirichlet with any in-range list (repetitions allowed, any order) a listed dof is constrained and holds the last value listed for it, every other dof is untouched; and after Renumbering and Disassembling of any vector of n components the listed dofs still hold exactly those values.

### C11 Periodic constraints share the master's unknowns (proved)

If masters are not slaves and are not constrained, after SetPeriodic each slave's dofs carry exactly its master's equation numbers, all other free dofs are numbered 0..n-1 bijectively, and n is returned. Quantifier: all tables and pair lists satisfying the precondition.

*Model and method.* Composition SetPeriodic / Renumbering / Disassembling; master and slave get equal numbers when no master is itself a slave. Proved under the property's precondition and more generally; C11_chain_refuted shows the precondition is needed (a master that is a slave of a later pair).

* `C11_periodic` (PropAssembly.v; closed): SetPeriodic for any list of (master, slave) pairs inside the table. Nodes that are never slaves keep their constrained entries; their free entries are numbered 0..n-1, each number exactly once; no number n or above appears anywhere. A slave carries its master's numbers whenever neither of the two is a slave of a later pair; so in particular always when no master is a slave and no slave is listed twice.
* `C11_chain_refuted` (PropAssembly.v; closed): the claim is false when a master is itself a slave of a later pair: the slave is left with no equation at all although its master has one.

### C12 Assembly adds up element contributions independently of element order (proved)

After assembling any list of elements into a matrix, entry (I,J) is the initial entry plus the sum of all Ke(i,j) whose local dofs map to I and J; so any permutation of the element list gives the same matrix and right-hand side. Quantifier: all element lists, connectivities, local-to-global maps and element matrices.

*Model and method.* Assembly into LILCSR refined to the finite sum over elements; permutation invariance follows because the sum commutes. All overloads; exact arithmetic.

* `C12_assembly_sums` (PropAssembly.v; R): assembling any list of elements adds to entry (i,j) the sum over the elements of the Ke(a,b) whose local dofs have the numbers i and j, to the right-hand side the element loads minus Ke times the prescribed values; so every order of the elements gives the same matrix and right-hand side.
* `C12_overloads` (PropAssembly.v; R): the partial overloads do the corresponding parts: matrix and prescribed values, matrix only, element vector only, prescribed values only, nodal loads; so matrix-only followed by the vector overloads equals the full one.

### C13 The reduced system is the equilibrium of the free degrees of freedom (proved)

If x solves the assembled reduced system K x = F built from elements, Dirichlet values and Neumann loads, then after Disassembling x, the sum of Ke*ue at each free dof equals the external load applied there. Conversely every field with the prescribed values that satisfies these equations is obtained from a solution of the reduced system. Quantifier: all meshes, element matrices and vectors, Dirichlet data and loads.

*Model and method.* All the routines of a linear static analysis composed; the reduced product is the residual of the full system restricted to free dofs. The converse (`PatchProof3.v`) reads the solution vector off the field with the numbering. SetDirichlet, Renumbering, Assembling (elements, nodal loads), CSR conversion and product, Disassembling composed; exact arithmetic.

* `C13_equilibrium` (PropAssembly.v; R): the whole pipeline. Starting from any displacements, table, Dirichlet list, elements and nodal loads that fit, SetDirichlet, Renumbering, assembly of all elements and of the nodal loads, and conversion to CSR run without a fault. For every x with K x = F (as computed by the CSR product), Disassembling gives displacements that hold the prescribed values and for which at every free dof the element forces sum_e Ke ue equal the element loads plus the nodal loads there. No numbering occurs in the conclusion.
* `C13_complete` (PropPatch.v; R): C13, the converse: every field with the prescribed values for which at every free dof the element forces equal the loads is what Disassembling gives for some solution of the assembled system.

### C14 Assembly preserves symmetry and positive semi-definiteness (proved)

If every element matrix is symmetric (resp. positive semi-definite) then so is the assembled matrix, for any constraints, including shared periodic unknowns. Quantifier: all element lists and numberings.

*Model and method.* The quadratic form of the assembled matrix is the sum of element forms on gathered vectors. Any numbering, including shared numbers; the quadratic form is the sum of the element forms.

* `C14_symmetry_psd` (PropAssembly.v; R): for any numbering (also one shared by periodic nodes), if every element matrix is symmetric so is the assembled matrix, and its quadratic form is the sum of the element quadratic forms; hence if every element matrix is positive semi-definite so is the assembled one.

### C15 Disassembling followed by gathering is a round trip (proved)

With an injective numbering, Disassembling any solution vector writes each component exactly to its dof and leaves constrained dofs unchanged; reading the free dofs back gives the same vector; ElementVector gathers exactly the element's dofs. Quantifier: all numberings and vectors.

*Model and method.* Index arithmetic on the numbering. Any numbering; ElementVector needs distinct local indices.

* `C15_round_trip` (PropAssembly.v; R): Disassembling writes component k of the vector to the dof numbered k and leaves constrained dofs alone; reading any free dof back gives its component, and every component is found at some dof; ElementVector of the result gathers at each local index the component, or the prescribed value.

### C16 The multi-element Assembling overload equals assembling one concatenated element (proved)

Assembling a coupled element given as several node groups (velocity and pressure) has the same effect as the single-group overload on the concatenated nodes and dof maps. Quantifier: all groups, maps and matrices.

*Model and method.* Equality of the two programs, including faults. Equality of results including faults.

* `C16_groups` (PropAssembly.v; R): assembling a coupled element given as several node groups equals assembling the one element with concatenated nodes and dof maps, including faults; the same holds for ElementVector.

### C17 Determinant computes the determinant (proved)

For every square matrix of every order n >= 1 Determinant() equals the sum over permutations of signed products. Quantifier: all orders and entries over any commutative ring (exact arithmetic).

*Model and method.* `DetProof.v` relates the recursive cofactor expansion to mathcomp's `\det` over an arbitrary commutative ring. Any commutative ring, every order; closed under the global context.

* `C17_determinant` (PropDet.v; closed): for a matrix of any order n >= 1 over any commutative ring, Determinant() is the sum over the permutations of n points of the signed products of entries.
* `C17_domain` (PropDet.v; closed): the determinant of an empty matrix and of a non-square matrix aborts.

### C18 Inverse is a two-sided inverse (proved)

For every square matrix whose determinant is nonzero, A*A.Inverse() and A.Inverse()*A are the identity; if the determinant is zero the only possible outcome is a division by zero. Quantifier: all orders and entries over any field (exact arithmetic).

*Model and method.* Adjugate formula; relates to `invmx`. Any field, every order; singular matrices give a division by zero.

* `C18_inverse` (PropDet.v; closed): over any field, for every order n >= 1 and every matrix with nonzero determinant, Inverse() returns a matrix which multiplied on either side by the argument gives the identity.
* `C18_singular` (PropDet.v; closed): a singular matrix makes Inverse() divide by zero.

### C19 Dense matrix storage implements matrix algebra (proved)

For well formed operands with matching shapes, +, -, scalar and matrix products, Transpose, Vstack, Hstack, Block, Identity and Diagonal return well formed matrices with the mathematical entries and never access outside their storage; mismatched shapes abort. Quantifier: all shapes and entries.

*Model and method.* Row-major list model of Matrix/Vector, index functions as the specification. Any scalar type and operations; mismatched shapes abort.

* `C19_write` (PropDense.v; closed): C19, reading and writing one entry: inside the matrix the write changes that entry and nothing else; outside it aborts.
* `C19_add_sub` (PropDense.v; closed): C19, entry-wise sum and difference
* `C19_scalar` (PropDense.v; closed): C19, negation, product and quotient with a scalar
* `C19_product` (PropDense.v; closed): C19, matrix product and matrix times vector
* `C19_reshape` (PropDense.v; closed): C19, transpose, stacking, block extraction and deletion of a row and column
* `C19_constructors` (PropDense.v; closed): C19, fresh, identity, diagonal and outer-product matrices
* `C19_mismatch` (PropDense.v; closed): C19, operands of the wrong shape abort
* `C19_vectors` (PropDense.v; closed): C19, vectors: sum, difference, scalar multiples, stacking and segments

### C20 LU with SolveLU solves every nonsingular system (proved)

For every nonsingular square A and right-hand side b, LU never meets a zero pivot, and SolveLU returns x with A x = b; all multipliers have absolute value at most 1 and pivot is a permutation. Quantifier: all orders, nonsingular matrices and right-hand sides (exact arithmetic).

*Model and method.* Loop invariant of the in-place factorisation with row exchanges (`P A = L U`), then forward/backward substitution; a regular matrix never has a zero pivot column. Exact arithmetic. Includes the factorisation P A = L U.

* `C20_lu_solves` (PropLU.v; R): for every nonsingular A (only the zero vector is mapped to zero) and every b, LU and SolveLU run to completion without a zero pivot, a failing assert or an access out of bounds, and the vector left in b solves A x = b. The pivot vector is a permutation of 0..n-1 and every multiplier stored below the diagonal has absolute value at most 1. The initial contents of the pivot vector do not matter.
* `C20_shapes` (PropLU.v; R): shapes that do not fit abort.

### C21 Vector geometry helpers (proved)

VectorProduct is orthogonal to both arguments and antisymmetric with the Lagrange identity for its norm; Normal returns a unit vector for every nonzero vector and divides by zero otherwise; the dot product is bilinear and Norm squared is the self dot product. Quantifier: all vectors.

*Model and method.* Algebra over R. Exact arithmetic over the reals.

* `C21_dot` (PropDense.v; R+): C21, dot product: symmetric, bilinear, positive, and the square of Norm
* `C21_vector_product` (PropDense.v; R): C21, VectorProduct: orthogonal to both arguments, antisymmetric, with the Lagrange identity |a x b|^2 = |a|^2 |b|^2 - (a.b)^2; other sizes abort.
* `C21_normal` (PropDense.v; R+): C21, Normal: a unit vector with the direction of the argument; the zero vector makes it divide by zero.

### C22 Convergence reported by the CG family is true convergence (proved)

Whenever CG, ScalingCG, ILU0CG or SORCG leaves its loop through the convergence test, the returned x satisfies |b - A x| < eps |b| for the true residual, whatever the matrix and preconditioner did. Quantifier: all matrices (even non symmetric), right-hand sides, tolerances, iteration counts.

*Model and method.* Loop invariant: the recurrence residual is the true residual; so the exit test bounds `|b-Ax|/|b|`.

* `C22_cg_family` (PropKrylov.v; R+): whatever the matrix and the preconditioner do, when one of the solvers of the CG family leaves its loop through the convergence test, the returned vector has a true residual below the tolerance: |b - A x| < eps |b| (and the right length).

### C23 Convergence reported by the BiCGSTAB family is true convergence (proved)

Whenever BiCGSTAB, ScalingBiCGSTAB, ILU0BiCGSTAB or BiCGSTAB2 leaves its loop through the convergence test, the returned x satisfies |b - A x| < eps |b| for the true residual. Quantifier: all matrices, right-hand sides, tolerances, iteration counts.

*Model and method.* The same invariant for the four BiCGSTAB solvers.

* `C23_bicgstab_family` (PropKrylov.v; R+): the same for the BiCGSTAB family.

### C24 CG terminates with the exact solution in at most n steps (proved)

For symmetric positive definite A of order n, in exact arithmetic CG never divides by zero before its residual vanishes, its residuals are mutually orthogonal and its directions conjugate, and the residual is zero after at most n steps. Quantifier: all orders, all SPD matrices, all right-hand sides.

*Model and method.* Orthogonality of residuals and conjugacy of directions by induction (`CGMath.v`); at most n orthogonal nonzero vectors. Exact arithmetic. Trace, finite termination, scaled and ILU0-preconditioned CG (positive computed pivots).

* `C24_cg_converges` (PropKrylov.v; R+): for a symmetric positive definite matrix of order n and a nonzero right hand side CG reports convergence within n iterations for every positive tolerance, with a true residual below it: in particular no division by zero happens before.
* `C24_cg_trace` (PropKrylov.v; R): the iterates themselves. There is a number m <= n of steps after which the residual is exactly zero; up to there every step succeeds, the carried residual is b - A x, residuals are mutually orthogonal and directions A-conjugate.
* `C24_scaling_cg` (PropKrylov.v; R+): diagonally scaled CG on symmetric positive definite matrices.
* `C24_ilu0_cg` (PropKrylov.v; R+): ILU0CG with the factors ILU0 computes from the (structurally) symmetric positive definite matrix itself: if the computed pivots are positive, the preconditioner L U is symmetric positive definite and ILU0CG reports convergence within n iterations.

### C25 Solvers handle a zero right-hand side (partial)

Solving A x = 0 from the zero start returns x = 0. Quantifier: all SPD matrices.

*Model and method.* Computation on the model: the first iteration divides 0 by 0. Property is false of the code (refuted): 0/0 in the first iteration for every matrix; C25_zero_rhs gives the general statement, C25_zero_rhs_refuted the witness.

* `C25_zero_rhs` (PropKrylov.v; R+): C25 is false of the code. With a zero right hand side every one of these solvers computes 0/0 in its first iteration (NaN in C++; the loop has no test before it), although x = 0 is the solution and the starting vector.
* `C25_zero_rhs_refuted` (PropKrylov.v; R+)

### C26 ILU0 reproduces the matrix on its sparsity pattern (proved)

For a well formed CSR with stored nonzero pivots, the factors returned by ILU0 keep the pattern and their product equals A at every stored position. Quantifier: all patterns and sizes.

*Model and method.* Invariant of the IKJ loop over CSR arrays; on the pattern the products of the factors telescope to the matrix.

* `C26_ilu0` (PropKrylov.v; R): ILU0 either divides by a zero pivot or returns a matrix with exactly the stored positions of A, whose unit lower and upper triangular parts have a product that agrees with A at every stored position.
* `C26_complete` (PropKrylov.v; R): conversely, if some incomplete factorisation with nonzero pivots exists on the pattern of A, ILU0 succeeds and returns it.
* `C26_no_fill_in` (PropKrylov.v; R): on patterns without fill-in (for instance tridiagonal ones) the factorisation is exact, so that one application of PreILU0 solves A x = b.

### C27 PreILU0 solves with the incomplete factors (proved)

PreILU0(M,b) returns the vector x with L U x = b, where L is unit lower and U upper part of M, whenever all diagonal entries are stored and nonzero. Quantifier: all well formed CSR matrices, all right-hand sides.

*Model and method.* Both triangular sweeps with their break conditions; the result multiplied by the factors gives the right-hand side.

* `C27_pre_ilu0` (PropKrylov.v; R): PreILU0 solves L U x = b exactly when all diagonal entries are nonzero; a zero or missing diagonal entry makes it divide by zero.

### C28 SOR stops only at solutions when it stops moving (proved)

If one SOR sweep leaves x unchanged, then A x = b (for nonzero relaxation factor and nonzero diagonal); each sweep is the textbook SOR update. Quantifier: all matrices, right-hand sides and factors.

*Model and method.* One sweep as an affine map; fixed points, energy decrease identity.

* `C28_sweep` (PropKrylov.v; R): one sweep is the textbook SOR update x'_i = x_i + w ((b_i - sum_(j<i) A_ij x'_j - sum_(j>i) A_ij x_j)/A_ii - x_i); the returned estimate is the sum of the relative changes, not a number if a component was zero; a zero diagonal entry makes the sweep divide by zero.
* `C28_fixed_point` (PropKrylov.v; R): a sweep leaves x unchanged exactly when x solves the system.
* `C28_energy` (PropKrylov.v; R): for symmetric A with positive diagonal and 0 < w < 2 no sweep increases the energy x'Ax/2 - b'x, and it decreases unless x is already a solution.
* `C28_stop_test` (PropKrylov.v; R): when SOR reports convergence, its last sweep started from a vector without zero components and changed it by less than eps in the summed relative measure, and the true residual is controlled by that change.

### C29 Shape functions form a partition of unity (proved)

For every element family the shape function values sum to 1 and each row of derivatives sums to 0 at every point of the parent domain. Quantifier: all points.

*Model and method.* Polynomial identities (`ring`/`field`) for each of the nine families.

* `C29_partition_of_unity` (PropShape.v; R): for every element family and every point r, the n shape function values sum to 1 and each of the d rows of dNdr has n entries summing to 0.

### C30 Shape functions interpolate at their own nodes (partial)

For each element family N_i(Points[j]) is 1 if i=j and 0 otherwise, and Points has one entry per shape function. Quantifier: all families and node pairs.

*Model and method.* Computation at the tabulated points. False of the 20 node hexahedron: its Points table has a surplus entry (C30_kronecker_refuted). Proved for every other family (C30_kronecker) and for the table without that entry (C30_kronecker_20).

* `C30_kronecker` (PropShape.v; R): for all families except the 20 node hexahedron, Points has n entries and N_i(Points[j]) = 1 if i = j, else 0.
* `C30_kronecker_20` (PropShape.v; R): C30 for the 20 node hexahedron: the table Points has 21 entries (entry 12 repeats the corner (-1,1,1)); skipping that entry the interpolation property holds.
* `C30_kronecker_refuted` (PropShape.v; R): C30 is false of the table of the 20 node hexahedron as it stands: it has one entry too many and shape function 12 vanishes at its own Points entry.

### C31 dNdr is the gradient of N (proved)

For each element family dNdr(r)(k,i) is the partial derivative of N_i with respect to r_k at every point. Quantifier: all points.

*Model and method.* Coquelicot `is_derive` in every coordinate.

* `C31_gradient` (PropShape.v; RC): entry (k,i) of dNdr is the partial derivative of N_i with respect to r_k.

### C32 Isoparametric completeness (proved)

For each family, sum_i N_i(r)*Points[i] = r, so every affine field is reproduced exactly inside the parent element. Quantifier: all points, all affine fields.

*Model and method.* Polynomial identities: linear fields for all, quadratic ones for the quadratic families.

* `C32_completeness` (PropShape.v; R): every affine field is interpolated exactly: if u = a + b . r at the points of the table, sum_i N_i(r) u_i = a + b . r everywhere, and the gradient computed from dNdr is b. (20 node hexahedron: its table without the surplus entry.)
* `C32_quadratic` (PropShape.v; R): the quadratic families reproduce every quadratic field: 3 node line, 6 node triangle, 8 node square, 20 node hexahedron.

### C33 Quadrature rules integrate exactly up to their degree (proved)

Each Gauss and Newton-Cotes rule integrates every polynomial up to its stated degree exactly over its reference domain. Quantifier: all polynomials up to the degree.

*Model and method.* Linear functionals on monomials: exact integrals by iterated integrals in Coquelicot (`QuadSpec.v`), with the true irrational abscissae.

* `C33_line` (PropQuad.v; RC): C33, line rules: the rule value of every polynomial up to the degree equals its integral over [-1,1]: 1 for the one point rules, 3, 3, 5 and 7 for the two point Gauss rule and the 3, 5 and 7 point Newton-Cotes rules.
* `C33_square` (PropQuad.v; RC): C33, square rules: exact for degree 1, 3, 5 in each variable.
* `C33_cube` (PropQuad.v; RC): C33, cube rules: exact for degree 3 and 5 in each variable.
* `C33_triangle` (PropQuad.v; RC): C33, triangle rules over 0 <= x <= 1, 0 <= y <= 1 - x: the one point rule is exact for affine integrands, the three point rule for quadratic ones.
* `C33_tetrahedron` (PropQuad.v; RC): C33, tetrahedron rule over 0 <= x, 0 <= y, 0 <= z, x + y + z <= 1: exact for affine integrands.

### C34 Element stiffness matrices are symmetric (proved)

PlaneStrain, PlaneStress, PlaneStiffness (symmetric D), Solid, HeatTransfer, Diffusion, Mass and Truss element matrices are symmetric for every geometry on which they are defined. Quantifier: all node coordinates, materials, shape functions and rules.

*Model and method.* `ElemModel.v` is generic in shape function values and rule. Sum over points of `B^T D B J w` is symmetric. Symmetry of plane strain/stress/general-D, selective, solid, scalar and mass matrices; Truss in C43_truss; Wilson-Taylor not covered.

* `C34_symmetric_plane` (PropElem.v; R): symmetry.
* `C34_symmetric_selective` (PropElem.v; R): the routines with two quadrature rules are symmetric whatever the rules
* `C34_symmetric_solid` (PropElem.v; R)
* `C34_symmetric_scalar` (PropElem.v; R)

### C35 Element stiffness is positive semi-definite for physical materials (proved)

With positive Jacobians and weights, E >= 0, -1 < nu < 1/2 and t >= 0 the quadratic form of the plane strain, plane stress and solid stiffness is nonnegative for every displacement. Quantifier: all geometries, displacements, materials in range.

*Model and method.* Energy at each point is a sum of squares for admissible constants. Nonnegative energy for plane strain, plane stress and solid; zero energy only for zero strain at the rule points.

* `C35_psd_plane` (PropElem.v; R): nonnegative energy
* `C35_psd_solid` (PropElem.v; R)
* `C35_zero_energy` (PropElem.v; R): with E, t > 0 the energy vanishes only if the strain vanishes at every point of the rule

### C36 Rigid body motions produce no elastic force (proved)

Translations and linearised rotations are in the null space of the plane strain, plane stress and solid element stiffness; constant temperature is in the null space of HeatTransfer. Quantifier: all geometries, shape functions with partition of unity, rules.

*Model and method.* `B` applied to a rigid motion gives zero strain, from partition of unity and completeness of dNdX. Rigid motions a + xW, W skew; constant temperature.

* `C36_rigid` (PropElem.v; R): rigid body motions
* `C36_rigid_solid` (PropElem.v; R)
* `C36_constant_temperature` (PropElem.v; R)

### C37 Element mass is conserved (proved)

The entries of each translational block of the consistent mass matrices sum to density times thickness times the element area as computed by Area with the same rule; the lumped matrix has the same total. Quantifier: all geometries, shape functions with partition of unity, rules.

*Model and method.* Finite sum algebra plus partition of unity. Block sums of the mass matrices equal density times thickness times Area; lumped mass has the same total.

* `C37_total_mass` (PropElem.v; R): total mass. Area needs nodes with exactly two coordinates.

### C38 Selective integration variants agree with full integration (partial)

PlaneStrainStiffnessSRI and PlaneStrainStiffnessBbar with the same rule for both parts equal PlaneStrainStiffness; PlaneStiffnessBbar with the same rule equals PlaneStiffness for every symmetric D. Quantifier: all geometries and materials.

*Model and method.* Equality of the two programs' results when the rules agree. SRI and B-bar with one rule equal plane strain; the general-D B-bar claim is refuted.

* `C38_same_rule` (PropElem.v; R): selective integration with one rule
* `C38_bbar_general_refuted` (PropElem.v; R+): C38 for B-bar with a general symmetric D is false: the coupling between the spherical and the deviatoric part of the strain is dropped.

### C39 The total Lagrange tangent is the derivative of its residual (partial)

For every displacement and direction the derivative of the residual vector of PlaneStrainStiffnessTotalLagrange is minus the tangent matrix times the direction, and at zero displacement the tangent equals PlaneStrainStiffness with the same thickness. Quantifier: all geometries, displacements, directions.

*Model and method.* Exact forms of tangent and residual, then the derivative (derivable_pt_lim of the standard library) of the residual along an arbitrary direction. Tangent consistency and the zero-displacement limit are proved for plane strain and solid (C39_consistent, C39_zero). The clause with equal thickness in both routines is false (C39_thickness_refuted): the total Lagrangian routine ignores its thickness argument.

* `C39_forms` (PropElem2.v; R): what the total Lagrangian routines return
* `C39_consistent` (PropElem2.v; R): the returned matrix is the exact derivative of the returned residual
* `C39_zero` (PropElem2.v; R): at zero displacement the residual vanishes and the tangent is the linear stiffness, of unit thickness in the plane case
* `C39_thickness_refuted` (PropElem2.v; R+): C39 with the thickness passed to both routines is false: the total Lagrangian routine ignores it
* `C39_potential` (PropElem3.v; R): the residual of the total Lagrangian routines is minus the derivative of the St. Venant-Kirchhoff energy
* `C39_rigid` (PropElem3.v; R): a rigid motion, however large, causes no residual

### C40 The Navier-Stokes tangent is the derivative of its residual (partial)

For every state and direction the derivative of the residual of NavierStokesTangent is minus the tangent times the direction. Quantifier: all geometries, states, directions.

*Model and method.* As C39 for the flow tangent; the derivative differs from the matrix by an explicit viscous term. FlowModel models NavierStokesTangent (NavierStokes.h). C40_forms gives the exact forms of matrix and residual, C40_derivative the true derivative; the matrix contains a spurious viscous term, so consistency is refuted for mu<>0 (C40_refuted, triangle) and proved for mu = 0 (C40_inviscid_partial).

* `C40_forms` (PropFlow.v; R): the returned vector is minus the weak form of the steady Navier-Stokes equations; the returned matrix is its derivative plus a spurious viscous term
* `C40_derivative` (PropFlow.v; R): the true derivative of the returned residual along every line of states
* `C40_inviscid_partial` (PropFlow.v; R): C40 for zero viscosity: the matrix is minus the derivative of the residual. The full statement, for every mu, is false: C40_refuted
* `C40_refuted` (PropFlow.v; R+): C40 as stated is false: for positive viscosity the matrix is not the derivative of the residual, on the triangle with a stretching flow

### C41 Stokes viscous force vanishes for rigid rotation (partial)

The velocity block of StokesStiffness annihilates rigid body velocities. Quantifier: all geometries.

*Model and method.* Exact form; the rotation force is computed on every element. C41_form: exact form of StokesStiffness; the exchanged off-diagonal viscous blocks make rigid rotations produce forces (C41_rotation_force on every element, C41_refuted). Symmetry and translations hold (C41_symmetric).

* `C41_form` (PropFlow.v; R): the form of StokesStiffness is the Stokes weak form plus an extra viscous term; the off-diagonal viscous blocks are exchanged
* `C41_symmetric` (PropFlow.v; R): StokesStiffness is symmetric and annihilates rigid translations
* `C41_rotation_force` (PropFlow.v; R): on every element of nonzero area and with nonzero viscosity a rigid rotation produces a viscous force
* `C41_refuted` (PropFlow.v; R+): C41 as stated is false: the triangle (0,0), (2,0), (0,1) with mu = 1 and unit angular velocity

### C42 The weak spring removes rigid body modes (partial)

Assembling WeakSpring with alpha > 0 over elements touching every node adds a positive definite contribution on the listed dofs. Quantifier: all meshes and dof lists.

*Model and method.* Exact energy of the spring matrix. False for two or more listed dofs (C42_two_dofs_refuted): all listed dofs of a node are mapped to one local index, so only the square of their sum is penalised (C42_energy). True for one listed dof (C42_single).

* `C42_energy` (PropSpring.v; R): the energy added by the springs: alpha times the sum over the nodes of every element of the SQUARE OF THE SUM of the listed dofs
* `C42_single` (PropSpring.v; R): C42 for one listed dof: positive on every vector with a nonzero component at a listed dof of a touched node
* `C42_two_dofs_refuted` (PropSpring.v; R): C42 as stated is false: with two listed dofs the sum of the two components is penalised, not each of them. Every mesh has a nonzero vector of zero energy, here the translation by (1, -1).

### C43 Truss element is the exact linear bar (proved)

Truss2D is symmetric positive semi-definite, annihilates translations and infinitesimal rotations, and its energy is EA/l times the squared axial elongation; coincident nodes divide by zero. Quantifier: all node positions and displacements.

*Model and method.* Exact entries, energy `EA/l (elongation)^2 / 2`. Energy, symmetry, rigid motions, division by zero.

* `C43_truss` (PropElem.v; R+): the truss

### C44 Density filter is an averaging operator (proved)

With nonnegative weights and positive sums GetFilteredVariables stays between the minimum and maximum of its neighbours, preserves constants and is linear. Quantifier: all neighbour lists, weights, densities.

*Model and method.* Finite sums; convex combination. GetFilteredVariables of the density filter: value, bounds, constants, linearity, for all neighbour lists with positive weight sums.

* `C44_average` (PropFilter.v; R): the filtered density is the weighted mean over the neighbours, stays between their extremes and preserves constants
* `C44_linear` (PropFilter.v; R): the density filter is linear

### C45 Filter sensitivities follow the chain rule (partial)

GetFilteredSensitivitis returns the gradient with respect to the design variables of any function of the filtered variables. Quantifier: all weights and sensitivities.

*Model and method.* Derivative of the filtered variable (Coquelicot), compared with the routine's output. C45_gradient and C45_heaviside_gradient give the exact gradient (transposed filter). The routines apply the filter itself instead of its transpose, so the statement holds only when the normalised weights are symmetric (C45_density_partial, C45_heaviside_partial) and is false otherwise (C45_density_refuted, C45_heaviside_refuted: three elements in a row).

* `C45_gradient` (PropFilter.v; R): the gradient of a function of the filtered densities is the transposed filter applied to its gradient
* `C45_density_partial` (PropFilter.v; R): if the normalised weights are symmetric, GetFilteredSensitivitis of the density filter returns the gradient
* `C45_density_refuted` (PropFilter.v; R): C45 as stated is false: three elements in a row with symmetric weights, F the first filtered density
* `C45_heaviside_gradient` (PropFilter.v; RC): the gradient of a function of the projected densities
* `C45_heaviside_partial` (PropFilter.v; RC): if the normalised weights are symmetric, GetFilteredSensitivitis of the Heaviside filter returns the gradient
* `C45_heaviside_refuted` (PropFilter.v; RC): C45 is also false for the Heaviside filter: the same three elements at density 1/2

### C46 Heaviside projection maps [0,1] into [0,1] (proved)

For beta > 0 and densities in [0,1] the projected densities are in [0,1], monotone in each variable, and all-zero, all-half and all-one fields are fixed. Quantifier: all weights, densities, beta.

*Model and method.* Bounds on tanh/exp expressions. Complete, for all weights, densities, beta > 0.

* `C46_heaviside` (PropFilter.v; RC): the projection maps [0,1] into [0,1], is monotone and fixes the fields 0, 1/2 and 1

### C47 OC keeps design variables in their box (partial)

UpdateVariables returns variables between the bounds given at construction and within the move limit. Quantifier: all inputs.

*Model and method.* Invariant of one bisection candidate. The code clamps to [0,1] and the move limit but never uses the constructor's xmin, xmax: C47_box_partial is what holds, C47_refuted the counterexample.

* `C47_box_partial` (PropOC.v; RC): the new variables are in [0,1] and within the move limit; they respect the constructor's bounds only if these contain [0,1]
* `C47_refuted` (PropOC.v; RC): C47 as stated is false: the lower bound 1/2 given at construction is ignored

### C48 MMA iterates stay inside bounds and asymptotes (proved)

If UpdateVariables terminates, the new variables lie strictly between the move limits, hence within [xmin,xmax] and between the asymptotes. Quantifier: all inputs.

*Model and method.* Every Newton iterate keeps strict feasibility because of the step length rule; loop invariant. C48_mma and C48_conlin: complete model of UpdateVariables with the inner iteration as a fuelled loop; for every amount of fuel the only failure is running out of it, so a call that returns has the stated properties. CONLIN needs positive variables (x = 0 gives 0/0). Termination of the inner loop is not claimed.

* `C48_mma` (PropMMA.v; RC): from a usable solver and variables inside the box, UpdateVariables of MMA either runs on for ever or returns variables strictly inside the box, strictly between the asymptotes and strictly within the move limits, and leaves a usable solver; it never divides by zero or leaves a vector
* `C48_conlin` (PropMMA.v; RC): the same for CONLIN, whose variables must be positive because the reciprocals are used

### C49 The dense solver inside MMA and CONLIN solves its system (proved)

solvels returns the solution of A x = b for every nonsingular A. Quantifier: all orders and systems.

*Model and method.* Loop invariant of Gaussian elimination with partial pivoting on vectors of rows. C49_solvels: Gaussian elimination with partial pivoting on vectors of rows; both directions (regular: solution, singular: division by zero).

* `C49_solvels` (PropMMA.v; R): for every nonsingular A (only the zero vector is mapped to zero) solvels returns the solution of A x = b, whatever row exchanges are needed; for a singular A it divides by zero

### C50 SquareMesh produces a conforming mesh (proved)

Every element references existing distinct nodes, elements are counter-clockwise cells tiling the rectangle, every interior edge is shared by exactly two elements in opposite directions and GenerateEdges lists exactly the edges used once. Quantifier: all subdivisions and sizes.

*Model and method.* Index arithmetic on the node and element tables; tiling stated with points of the rectangle. SquareMesh first and second order: nodes, elements, edges, selections; conforming, counter-clockwise, tiling, boundary edges.

* `C50_nodes` (PropMesh.v; R): The nodes of SquareMesh are the points of the regular grid, column by column.
* `C50_mesh` (PropMesh.v; R): SquareMesh: elements are conforming, they are counter-clockwise rectangles tiling the rectangle, and the edges are its boundary.
* `C50_mesh2` (PropMesh.v; R): The same for eight node elements, whose additional nodes are the midpoints of the sides.
* `C50_selected` (PropMesh.v; R): GenerateElementIdsSelected and GenerateEdgeIdsSelected return the elements and edges all of whose nodes satisfy the predicate, each once.

### C51 GenerateFixedlist selects exactly the nodes satisfying the predicate (partial)

For the structured meshers the returned list contains (node,dof) exactly for nodes whose generated coordinates satisfy the predicate. Quantifier: all sizes and predicates.

*Model and method.* The returned list is characterised as filter of the node table. Proved for SquareMesh (both orders), SquareMesh2, GrandStructure2D, AnnulusMesh, SquareCircleAnnulusMesh and SquareAnnulusMesh2. False for SquareAnnulusMesh, which exchanges the inner and outer squares (refuted, with the exact behaviour as _partial).

* `C51_hole` (PropHole.v; R): SquareAnnulusMesh2::GenerateFixedlist selects exactly the nodes satisfying the predicate.
* `C51_square` (PropMesh.v; R): SquareMesh::GenerateFixedlist lists, node by node, the given degrees of freedom of exactly the nodes satisfying the predicate.
* `C51_square_second` (PropMesh.v; R): The same for GenerateFixedlist2 and the nodes of the eight node mesh.
* `C51_graded` (PropMesh.v; RC): The same for SquareMesh2.
* `C51_grand` (PropMesh.v; R): The same for GrandStructure2D.
* `C51_bad_dof` (PropMesh.v; R): A negative degree of freedom is rejected.
* `C51_annulus` (PropRing.v; R+): AnnulusMesh::GenerateFixedlist selects exactly the nodes satisfying the predicate.
* `C51_square_circle` (PropRing.v; RC): The same for SquareCircleAnnulusMesh.
* `C51_square_annulus_refuted` (PropRing.v; R): It is false for SquareAnnulusMesh: between the squares of sides 1 and 2 with one element per side, asking for the nodes with x > 3/4 gives node 0 at (1/2,-1/2) but not node 4 at (1,-1). GenerateFixedlist exchanges the roles of the inner and the outer square.
* `C51_square_annulus_partial` (PropRing.v; R): What SquareAnnulusMesh::GenerateFixedlist does select, for all sizes: node k is listed when the predicate holds of the node at the same position of the opposite layer (layer nt - i instead of i). The full claim would have nodes in place of the mirrored list; it holds for predicates that do not distinguish the two.

### C52 SquareAnnulusMesh2 produces a conforming mesh with a hole (proved)

Every element references the four corner nodes of its cell and no cell of the hole, for all subdivisions with nv,nw >= 1 of matching parity. Quantifier: all subdivisions.

*Model and method.* Index arithmetic over the eight blocks. Conforming, tiles the rectangle minus the hole, cells, outer edges; odd differences are rejected; nv = 0 writes out of bounds.

* `C52_mesh` (PropHole.v; R): SquareAnnulusMesh2 generates a conforming mesh of counter-clockwise rectangles that tile the rectangle without the centred hole.
* `C52_cells` (PropHole.v; R): Every element consists of the four corners of a cell of the nx x ny grid outside the hole.
* `C52_edges` (PropHole.v; R): GenerateEdges lists every free side on the outer rectangle exactly once; the sides of the hole, which are free too, are not listed.
* `C52_parity` (PropHole.v; closed): A hole that cannot be centred is rejected.
* `C52_no_hole` (PropHole.v; R): The hole must not be empty: with nv = 0 GenerateNodes writes beyond the end of its array.

### C53 GrandStructure lists each admissible bar once (proved)

GenerateElements returns every unordered pair of nodes closer than the limit exactly once. Quantifier: all node grids and limits.

*Model and method.* The two nested loops produce each pair once; distance test as in the code. Every pair of nodes at distance at most the limit occurs exactly once; stated on the returned list.

* `C53_bars` (PropMesh.v; R): GrandStructure2D::GenerateElements lists every pair of different nodes whose distance is below the limit exactly once, the later node first.

### C54 VTK export is readable back (partial)

The token stream written for points, cells and data is parsed back by the VTK import into the same numbers (vectors padded to three components), with counts matching. Quantifier: all meshes and fields.

*Model and method.* `IOModel.v`: files are lists of characters, streams carry eof and fail bits, numbers go through a format record. Writers produce words/lines which the reader's loop is shown to consume (word level for ImportFromVTK2.h, line level for ImportFromVTK.h). Files are lists of characters; numbers are printed and read through a format record, of which double_fmt (six significant digits, integer valued doubles) is an instance. Nodes and elements of every exported file are read back by both importers, and so is every sub-list of the fields asked for in file order, provided each value survives the six digit text format; C54_precision_refuted gives the coordinate 1234567, which does not, so the statement without that proviso is false.

* `C54_reimport` (PropIO.v; closed): the nodes (padded to three components) and the elements of every exported file are read back by GenerateNodes and GenerateElements, whatever fields the file also contains.
* `C54_import` (PropIO.v; closed): on every exported file ImportPOINTS, ImportCELLS and then the imports of any of the fields, asked for in file order, return what was exported (vectors cut to the importer's dimension). The flag beside a field says whether it is asked for; fields not asked for are skipped.
* `C54_counts` (PropIO.v; closed): the counts announced in the POINTS, CELLS and CELL_TYPES headers are the numbers of values that follow.
* `C54_double` (PropIO.v; closed): with the default six digit format of doubles, every integer value of at most six digits survives, so that the hypotheses above are met by such coordinates.
* `C54_precision_refuted` (PropIO.v; closed): C54 fails for doubles that need more than six digits: the coordinate 1234567 is written as 1.23457e+06 and read back as 1234570.

### C55 CSV import returns the file's rows (partial)

Import functions return, for well formed files, exactly one record per data line in file order with the fields of that line; missing trailing fields are not invented. Quantifier: all files.

*Model and method.* The loop `while(!ifs.eof()){ ifs >> buf; ... }` with its `getline(sbuf, str, ',')` calls is modelled on characters; rows are described by a layout relation. Files are lists of characters. For files laid out as rows of comma separated fields (also with carriage returns and empty lines) each import returns one record per row, in order. The last clause is false: C55_short_row and C55_missing_refuted show that ImportInitialFromCSV repeats the last value of a short row into the remaining components and ImportPeriodicFromCSV pairs a node with itself.

* `C55_nodes` (PropIO.v; closed): the node file yields one node per row, in file order, with the values behind the identifier.
* `C55_elements` (PropIO.v; closed): the element file yields one element per row with its node numbers.
* `C55_conditions` (PropIO.v; closed): the condition files yield, row by row, one condition (node, component, value) for every field that is not "free".
* `C55_initial` (PropIO.v; closed): the initial value file sets, row by row, the components of the named node whose field is not "free", when every row has as many values as the node has components.
* `C55_periodic` (PropIO.v; closed): the periodic file yields one pair of node numbers per row.
* `C55_short_row` (PropIO.v; closed): in a row with fewer values than the node has components, ImportInitialFromCSV invents the missing ones: the last value of the row is stored in all of them.
* `C55_missing_refuted` (PropIO.v; closed): C55 fails for missing trailing fields: the row "0,7" overwrites the second component of node 0, for which the file has no value, and the row "5" makes node 5 its own periodic partner.

### C56 BiCGSTAB solves systems that need only a half step (partial)

BiCGSTAB returns the solution also when its first half step already produces it (e.g. A = identity). Quantifier: all orders and right-hand sides.

*Model and method.* Computation on the model: omega becomes 0/0. Property is false of the code (refuted) with the identity matrix; general statement in C56_lucky_breakdown.

* `C56_lucky_breakdown` (PropKrylov.v; R+): C56 is false of the code: BiCGSTAB breaks down (0/0) whenever its first half step already yields the solution, e.g. on the identity matrix with any right hand side, where CG succeeds in one iteration.
* `C56_lucky_breakdown_refuted` (PropKrylov.v; R+)

### C57 SOR sweeps converge for symmetric positive definite matrices (proved)

For symmetric positive definite A and relaxation factor strictly between 0 and 2, repeated SOR sweeps from any starting vector converge to the solution of A x = b. Quantifier: all orders, matrices, right-hand sides, starting vectors, factors.

*Model and method.* Energy decrease per sweep ; the energy sequence is monotone and bounded below, so the updates, then the residuals, tend to zero.

* `C57_sor_converges` (PropKrylov.v; R+): for a symmetric positive definite matrix and 0 < w < 2 the SOR sweeps never fail, and from every starting vector they converge to the solution of A x = b (Ostrowski-Reich), in exact arithmetic.

### C58 SOR recognises convergence (partial)

SOR reports convergence once its iterate is the exact solution of a symmetric positive definite system. Quantifier: all SPD systems.

*Model and method.* Witness on which the test never holds. Property is false of the code (refuted); the stopping test divides by the previous component.

* `C58_sor_stops_refuted` (PropKrylov.v; R): C58 is false of the code: the stopping test divides by the previous value of each component, so a system whose solution has a zero component, e.g. the 1 x 1 system x = 0, is solved exactly by the first sweep but convergence is never reported, for any number of sweeps and any tolerance.

### C59 Element matrices are the quadrature of the weak form (proved)

For every library shape function, rule, node order and non-degenerate geometry, the bilinear form of the returned element matrix on nodal fields y, z equals the quadrature sum of the weak form: lambda tr(e(y)) tr(e(z)) + 2 mu e(y):e(z) times thickness for plane strain, plane stress (with its reduced lambda) and solids, D-weighted engineering strains for PlaneStiffness, conductivity grad y . grad z for heat and diffusion, y (c.grad z) for advection, density y z for masses; the local numbering pairs dof doulist[j] of node i with row m*i+j. Quantifier: all shape functions, rules, coordinates, material constants, nodal fields.

*Model and method.* Finite-sum algebra at each Gauss point. Bilinear form of the result = quadrature of the weak form.

* `C59_plane` (PropElem.v; R): the plane stiffness routines compute the quadrature of the elastic energy density; the result is numbered node by node.
* `C59_solid` (PropElem.v; R): the solid stiffness
* `C59_scalar` (PropElem.v; R): scalar problems: conduction, diffusion, advection, and all consistent mass matrices
* `C59_advection` (PropElem.v; R): the advection matrix is the quadrature of y (c . grad z), where y is the interpolated test field
* `C59_plane_mass` (PropElem.v; R): the consistent mass matrix of the plane problems

### C60 Area and Volume (proved)

Area and Volume return the quadrature of the Jacobian determinant; for a straight-sided triangle or quadrilateral with any of the library's triangle or square rules Area is the signed area of the shoelace formula, independent of the rule. Quantifier: all coordinates and node orders.

*Model and method.* As C59; shoelace formula for straight-sided elements. Area/Volume as quadrature, shoelace.

* `C60_measure` (PropElem.v; R): Area and Volume are the quadrature of the Jacobian determinant
* `C60_shoelace` (PropElem.v; R+): for straight-sided triangles and quadrilaterals the result is the signed area by the shoelace formula; for the tetrahedron one sixth of the triple product

### C61 NavierStokesStiffness is convection plus the symmetric viscous form (proved)

For every pair of velocity and pressure shapes, rule, geometry and advecting velocity, the bilinear form of NavierStokesStiffness on nodal flows (y, z) is the quadrature of rho y.(u.grad)z + 2 mu e(y):e(z); without convection (rho = 0) the matrix is symmetric, positive semi-definite for mu >= 0 and annihilates every rigid body velocity. Quantifier: all shapes, rules, geometries, velocities, constants.

*Model and method.* Finite-sum algebra. Forms, symmetry, kernel and positivity for all shapes, rules and geometries.

* `C61_form` (PropFlow.v; R): NavierStokesStiffness is convection by the given velocity plus the symmetric viscous form
* `C61_viscous` (PropFlow.v; R): its viscous part is symmetric, annihilates every rigid body velocity and is positive semi-definite

### C62 Newton residual and Picard system agree (proved)

The residual returned by NavierStokesTangent is, entry by entry, minus (NavierStokesStiffness with the current velocity + ContinuityStiffness) applied to the current state, so both solution methods have the same solutions. Quantifier: all states, shapes, geometries, constants.

*Model and method.* Entrywise identity. Entrywise identity between the Newton residual and the Picard system.

* `C62_residual` (PropFlow.v; R): the residual of NavierStokesTangent is minus the Picard system (NavierStokesStiffness with the current velocity plus ContinuityStiffness) applied to the current state

### C63 NavierStokesAdjoint is the transposed derivative of the residual (proved)

With the sign of pressure unknowns and pressure equations changed, NavierStokesAdjoint is the transpose of the exact derivative of the residual of NavierStokesTangent along every line of states. Quantifier: all states, directions, shapes, geometries, constants.

*Model and method.* Coquelicot derivative of the residual. Adjoint = transpose of the true derivative (a limit of the returned residuals), with pressure sign flipped.

* `C63_adjoint` (PropFlow.v; R): the adjoint matrix is the transpose of the exact derivative of the residual, with the sign of the pressure unknowns and equations changed

### C64 Continuity and SUPG/PSPG matrices (proved)

ContinuityStiffness is skew symmetric (does no work on any flow) and vanishes on uniform velocities; whenever the three SUPG/PSPG routines return, they use at each integration point one common parameter 0 < tau <= |dt|/2 and are the quadratures of tau (u.grad y + grad q) times rho u.grad z, grad p and rho z. Quantifier: all states, shapes, geometries, constants.

*Model and method.* Finite-sum algebra; the stabilisation parameter is the square root expression of the source. Skewness; SUPG/PSPG forms whenever the calls return, with the common tau.

* `C64_continuity` (PropFlow.v; R): ContinuityStiffness is skew: it does no work on any flow, and a uniform velocity satisfies it
* `C64_stabilised` (PropFlow.v; R+): if dt and rho are not 0 and the stream length exists at every point the three stabilisation routines return; every result weights the momentum residual with tau (u.grad y + grad q), where tau is the parameter of stream length, viscosity and time step and 0 < tau <= |dt|/2

### C65 Flow mass and drag matrices (proved)

The consistent masses are the quadrature of rho y.z, symmetric, positive semi-definite and give the total momentum of uniform flows; the Brinkman matrix is the quadrature of y.kz; the lumped mass is diagonal and its entries add up to rho times the area in each component. Quantifier: all shapes, geometries, constants.

*Model and method.* Finite-sum algebra. Masses and drag.

* `C65_mass` (PropFlow.v; R): the mass matrices are the quadrature of rho y.z, symmetric, positive semi-definite and reproduce the total mass
* `C65_brinkman` (PropFlow.v; R): the Brinkman drag is the quadrature of y . k z
* `C65_decoupled` (PropFlow.v; R): the decoupled consistent and lumped masses; the lumped mass is diagonal and conserves the mass of the element in both components

### C66 Flow body force (proved)

The body force vector is the quadrature of f(x).y; its entries add up to the total force in each component and the pressure equations receive no load. Quantifier: all shapes, geometries, force functions.

*Model and method.* Finite-sum algebra. Body force.

* `C66_body_force` (PropFlow.v; R): the body force is the quadrature of f . y; its components add up to the total force and no pressure equation is loaded

### C67 Decoupled Navier-Stokes steps (proved)

The pressure Poisson matrix is the Laplacian (symmetric, positive semi-definite, constants in the kernel) with right-hand side -rho/dt div u; the velocity steps are driven by minus (rho u.grad u, mu grad u) and minus grad p. Quantifier: all shapes, geometries, states, constants.

*Model and method.* Finite-sum algebra. Decoupled routines: forms of all three steps.

* `C67_poisson` (PropFlow.v; R): the pressure equation of the decoupled method: Laplacian (symmetric, positive semi-definite, constants in the kernel) against -rho/dt div u
* `C67_velocity` (PropFlow.v; R): the right-hand sides of the two velocity steps: minus convection and diffusion of the current velocity, and minus the pressure gradient

### C68 Sensitivity filters are weighted averages (proved)

With nonnegative weights and positive densities Sigmund's filter times the density is the mean of density times sensitivity, keeps nonpositive sensitivities nonpositive and stays between the neighbours' extremes where the density is uniform; Borrvall's filter stays between the neighbours' extremes always. Quantifier: all neighbour lists, weights, densities, sensitivities.

*Model and method.* Finite-sum algebra, inequality for bounds. Both sensitivity filters.

* `C68_sigmund` (PropFilter.v; R): Sigmund's filter averages the weighted sensitivities s dfds, keeps their sign and is a plain average where the density is uniform
* `C68_borrvall` (PropFilter.v; R): Borrvall's filter is the average of the sensitivities weighted with w s; it stays between their extremes

### C69 OC bisection returns a feasible design (partial)

With decreasing objective and increasing constraint the bisection on the multiplier terminates for every constraint function, and the returned design satisfies the constraint whenever some multiplier in the bracket gives a feasible design; a design satisfying the optimality condition is a fixed point. Quantifier: all inputs and constraint functions.

*Model and method.* Invariant of the bisection; termination by halving. Bracketing invariant at exit, termination and fixed point are proved; feasibility of the returned design is false (C69_refuted), because the last candidate computed need not belong to the feasible end.

* `C69_bracket_partial` (PropOC.v; RC): the returned design belongs to one end of a bracket of relative width lambdaeps: the lower end violates the constraint, the upper end satisfies it
* `C69_refuted` (PropOC.v; RC): C69 as stated is false: the design returned violates the constraint although the bracket contains a feasible one
* `C69_terminates` (PropOC.v; RC): with 0 < lambdamin < lambdamax, a tolerance below the initial width, decreasing objective and increasing constraint the update terminates for every constraint function
* `C69_optimal_fixed` (PropOC.v; RC): a design satisfying the optimality condition df + lambda dg = 0 is a fixed point of the update with that multiplier

### C70 IsConvergence reports convergence only when the relative change is small (partial)

IsConvergence of OC, MMA and CONLIN returns true only when the change of the objective is less than eps times the size of the objective values. Quantifier: all objective values and tolerances.

*Model and method.* Case analysis of the test. Holds for positive sums (C70_convergence_partial); for negative sums the test is always true (C70_negative, C70_refuted).

* `C70_convergence_partial` (PropOC.v; R): for objective values with positive sum the convergence test compares the change with eps times the sum
* `C70_negative` (PropOC.v; R): for objective values with negative sum the test always reports convergence
* `C70_refuted` (PropOC.v; R): C70 as stated is false: objective values -1 and -2 count as converged

### C71 MMA and CONLIN stop at a KKT point of their subproblem (proved)

When UpdateVariables returns, the new variables belong to a strictly interior primal-dual point of the subproblem built from the current values and derivatives, and every one of the perturbed optimality conditions (stationarity in x, y, z, the constraints, all complementarity conditions) holds up to 0.9e-6 with a barrier parameter of at most 1e-6. Quantifier: all states, variables, values and derivatives, any number of variables and constraints.

*Model and method.* Loop invariant: at exit the code's KKT norm is below epsilon; related to independent residual definitions in `MMASpec.v`. The residuals, the point and the subproblem are defined in MMASpec.v without reference to the code's KKTNorm.

* `C71_mma_kkt` (PropMMA.v; RC): the variables returned by MMA belong to a strictly interior primal-dual point of Svanberg's subproblem whose perturbed optimality conditions hold up to 0.9e-6 with barrier parameter at most 1e-6
* `C71_conlin_kkt` (PropMMA.v; RC): the same for CONLIN and the convex linearisation

### C72 The MMA and CONLIN subproblems are convex first-order approximations (proved)

At the current variables the subproblem has the constraint values and all derivatives passed by the caller, and its objective and constraints are convex (between the asymptotes for MMA, for positive variables for CONLIN) whatever the signs of the derivatives. Quantifier: all states, variables, derivatives.

*Model and method.* Coquelicot derivatives and second-order convexity of the rational terms. Four theorems: values and derivatives, and convexity, for MMA and CONLIN.

* `C72_mma_first_order` (PropMMA.v; RC): the MMA subproblem agrees with the problem to first order at the current point: constraint values and all derivatives coincide
* `C72_conlin_first_order` (PropMMA.v; RC): the same for CONLIN
* `C72_mma_convex` (PropMMA.v; RC): objective and constraints of the MMA subproblem are convex between the asymptotes, whatever the signs of the derivatives
* `C72_conlin_convex` (PropMMA.v; RC): objective and constraints of the CONLIN subproblem are convex for positive variables

### C73 The returned variables nearly minimise the subproblem (proved)

The variables returned by UpdateVariables violate the constraints of the subproblem by at most 0.9e-6, and no feasible point has an objective smaller by more than 1.9e-6 per unknown plus 0.9e-6 times (distance + sum of the multipliers). Quantifier: all calls and all competing feasible points.

*Model and method.* Lagrangian duality from C71 and C72. Follows from the residual bounds of C71 and convexity by Lagrangian duality; the multipliers are existentially quantified.

* `C73_mma_near_optimal` (PropMMA.v; RC): the variables returned by MMA solve the subproblem approximately: constraints are violated by at most 0.9e-6 and no feasible point improves the objective by more than a multiple of 1e-6 of the number of unknowns, the distance and the multipliers
* `C73_conlin_near_optimal` (PropMMA.v; RC): the same for CONLIN

### C74 The inner iteration of MMA and CONLIN is Newton's method (partial)

At every interior point the linear system can be solved and the direction is the Newton direction for the complete system of perturbed optimality conditions: along it each residual r has derivative -r. Quantifier: all interior points, both reduced systems (n > m and n <= m).

*Model and method.* Elimination identities: the reduced system's solution is a solution of the full Newton system. Proved when n > m, n = 1 or a = 0; missing: n <= m with n >= 2 and a <> 0, where it is refuted: MMA.h:301-305 adds the a^2/D terms of the last diagonal entry once per variable.

* `C74_mma_newton_partial` (PropMMA.v; RC): at every interior point MMA finds a direction, and with more variables than constraints, with one variable, or with a = 0 it is the Newton direction of the complete system of optimality conditions: every residual r satisfies r' = -r along it. The full statement omits the last premise; see the refutation
* `C74_conlin_newton_partial` (PropMMA.v; RC): the same for CONLIN
* `C74_mma_newton_refuted` (PropMMA.v; RC): C74 is false with as many constraints as variables: with two of each and a = (1,1) already the first direction of the first call is not the Newton direction, because the squared coefficients a are added once per variable
* `C74_conlin_newton_refuted` (PropMMA.v; RC): C74 is false for CONLIN in the same way

### C75 MMA asymptotes follow Svanberg's rule (proved)

In the first two calls the asymptotes are asyinit box widths away; later the old distances are scaled by asydecr for oscillating variables, by asyincr for variables keeping their direction, by one otherwise; the result is kept between 0.01 and 10 box widths from the iterate. Quantifier: all states and variables.

*Model and method.* Case analysis. The rule is asymptote_rule in MMASpec.v.

* `C75_asymptotes` (PropMMA.v; R): the asymptotes follow Svanberg's rule, moved if necessary to between 0.01 and 10 box widths from the iterate

### C76 SquareMesh2 generates a conforming graded mesh (proved)

For nx, ny >= 1, positive sides and positive grading ratios other than 1, SquareMesh2 generates a conforming mesh that tiles the rectangle with its boundary edges; its coordinates are symmetric about the centre and successive widths grow by the given ratio towards the centre; a ratio of exactly 1 divides by zero. Quantifier: all sizes, sides and grading ratios.

*Model and method.* Geometric series. Conforming, tiling, grading, and the division by zero at ratio 1.

* `C76_graded_mesh` (PropMesh.v; RC): SquareMesh2 is a conforming mesh of counter-clockwise rectangles tiling the rectangle, whatever the grading ratios (other than one).
* `C76_grading` (PropMesh.v; RC): Its coordinates are symmetric about the centre and successive widths grow by the given ratio towards it.
* `C76_ratio_one` (PropMesh.v; RC): With ratio one (no grading) the width of the first cell is a division by zero and every coordinate is not a number.

### C77 The annulus meshers generate conforming meshes of the right size (proved)

AnnulusMesh (nt >= 3), SquareAnnulusMesh and SquareCircleAnnulusMesh generate conforming meshes with exactly their boundary edges; the elements of the first two are counter-clockwise and their areas add up to the area between the two polygons or rectangles; the first and last layers of the third lie on the circle and on the rectangle. Quantifier: all subdivisions and sizes.

*Model and method.* Index arithmetic and trigonometry; total area by summing the quadrilaterals. Conforming, boundary, positive areas and total area; AnnulusMesh, SquareAnnulusMesh, SquareCircleAnnulusMesh.

* `C77_annulus` (PropRing.v; R+): AnnulusMesh puts its nodes on nr + 1 circles and generates a conforming mesh of counter-clockwise elements with its two boundary polygons; the areas add up to that of the regular polygon with nt corners on the outer circle less that of the inner one.
* `C77_square_annulus` (PropRing.v; R): SquareAnnulusMesh: a conforming mesh of counter-clockwise elements between two concentric rectangles, with its boundary; the nodes of a layer lie on an interpolated rectangle, and the areas add up to the difference of the two areas.
* `C77_square_circle` (PropRing.v; RC): SquareCircleAnnulusMesh: a conforming mesh with its boundary whose first layer of nodes lies on the circle, the last on the rectangle, and the others on the segments between them.

### C78 BiCGSTAB and BiCGSTAB2 iterations satisfy their defining conditions (proved)

In every iteration of BiCGSTAB, ILU0BiCGSTAB, ScalingBiCGSTAB and BiCGSTAB2 that does not divide by zero, the shadow residual is orthogonal to the residual of the half step, the stabilising coefficients give the shortest possible new residual (over t - c A t, in odd BiCGSTAB2 steps over t - e y - c A t), and the next BiCGSTAB search direction is conjugate: (r*, A K (t + beta p)) = 0. Quantifier: all square CSR matrices, all linear preconditioners K, all states, all iterations.

*Model and method.* Loop invariants of the recurrences. every iteration of the four solvers: shadow orthogonality, minimal residual over the stabilising polynomial, conjugacy of the next direction

* `C78_bicgstab_step` (PropBicg.v; R+): the conditions that define BiCGSTAB hold after every iteration, for the plain and the preconditioned solvers (K is the preconditioner). The shadow residual is orthogonal to the half step t; omega makes the new residual the shortest vector t - c A K t; beta makes the next direction conjugate, and the carried scalar product is that of the shadow and the new residual.
* `C78_bicgstab2_step` (PropBicg.v; R+): C78 for BiCGSTAB2: in every run from the initial state the shadow residual is orthogonal to each half step t, and the new residual is the shortest vector of the form t - c A t in even steps, of the form t - e y - c A t in odd steps.

### C79 The BiCGSTAB solvers finish within the order of the matrix (proved)

For every square matrix of order n, nonzero b, eps > 0 and itrmax > n, BiCGSTAB, ILU0BiCGSTAB, ScalingBiCGSTAB and BiCGSTAB2 in exact arithmetic either report convergence with a residual below eps |b|, or divide by zero (a breakdown, possible also for nonsingular matrices); they never run through all iterations without converging. Quantifier: all square CSR matrices, right hand sides, tolerances and iteration limits above the order.

*Model and method.* Biorthogonality of the BiCG sequences, dimension argument. exact arithmetic; finite termination through biorthogonality of the underlying BiCG sequences; breakdown on a nonsingular 2x2 matrix shown

* `C79_bicgstab_terminates` (PropBicg.v; R+): with more than n iterations allowed, the four bi-conjugate gradient solvers never give up: for every square matrix and nonzero right hand side they either report convergence, truthfully, or divide by zero. The residual after n iterations without a breakdown is exactly zero.
* `C79_breakdown` (PropBicg.v; R+): the second alternative does occur. For the rotation matrix ((0,1),(-1,0)), which is nonsingular, and b = (1,0) both solvers divide by zero in their first iteration.

### C80 The VTK importer's calls may be made in any order (partial)

The import functions of ImportModelFromVTK return the data of the file whatever other import calls were made before; in particular ImportPOINTS returns the nodes also after ImportCELLS. Quantifier: all exported files and all orders of the calls.

*Model and method.* As C54. False: C80_order shows that for every mesh ImportPOINTS after ImportCELLS returns an empty list (and rewinds the file, so that asking again works).

* `C80_order` (PropIO.v; closed): what the importer returns depends on the order of the calls. Asked for the cells first, it then reports an empty point list for every mesh (and rewinds, so that a second request succeeds).
* `C80_order_refuted` (PropIO.v; closed): the calls are not independent of each other; a concrete file.

### C81 The updated Lagrange elements derive from the neo-Hookean energy (proved)

Let Psi = mu/2 (F:F - d) - mu ln J + lambda/2 (ln J)^2. For every displacement with J > 0 at all Gauss points the residual of PlaneStrainStiffnessUpdatedLagrange (d = 2) and SolidUpdatedLagrange (d = 3) is minus the derivative of the energy integrated over the undeformed element; the matrix is symmetric and is minus the derivative of the residual; rigid motions of any size give a zero residual; at zero displacement the matrix is the linear stiffness (of unit thickness in the plane case). Quantifier: all geometries, shape functions, quadrature rules, displacements with positive J and directions.

*Model and method.* The routines' spatial forms (gradients in the current configuration, Cauchy stress, volume element J) are pulled back to the reference element; first and second derivatives of the energy through the derivative of the determinant and of the inverse. plane strain ignores the thickness argument, as stated; a displacement with J <= 0 at a Gauss point has no finite result (C81_inverted)

* `C81_potential` (PropElem3.v; RC): the residual of the updated Lagrangian routines is minus the derivative of the neo-Hookean energy, integrated over the reference element
* `C81_consistent` (PropElem3.v; RC): the returned matrix is the exact derivative of the returned residual at every displacement that inverts no Gauss point
* `C81_symmetric` (PropElem3.v; RC): the tangent is symmetric
* `C81_zero` (PropElem3.v; RC): at zero displacement the residual vanishes and the tangent is the linear stiffness, of unit thickness in the plane case
* `C81_rigid` (PropElem3.v; RC): a rigid motion, however large, causes no residual
* `C81_inverted` (PropElem3.v; RC): a displacement that inverts or flattens a Gauss point has no finite result

### C82 Distributed loads do the work of the given density (proved)

PlaneStrainSurfaceForce, PlaneStressSurfaceForce, StokesSurfaceForce and HeatTransferSurfaceFlux (on an edge) and PlaneStrainBodyForce, PlaneStressBodyForce and ReactionDiffusionReaction (on an element) return nodal loads whose virtual work in every nodal field is the quadrature of the given density against the interpolated field; hence the nodal forces have the resultant force and moment of the load, and a uniform traction on a straight two-node edge is shared equally by its nodes. Quantifier: all library shape functions, edges and elements, rules, load functions and nodal fields.

*Model and method.* Forms of the loops (N^T f), partition of unity for the resultants, exactness of the line rules for affine integrands.

* `C82_surface_force` (PropLoad.v; R+): the nodal forces of PlaneStrainSurfaceForce (and PlaneStressSurfaceForce) do the virtual work of the traction _f along the edge in every nodal field, so they have its resultant force and moment
* `C82_body_force` (PropLoad.v; R): the same for PlaneStrainBodyForce and PlaneStressBodyForce over the area
* `C82_uniform_edge` (PropLoad.v; R+): a uniform traction on a straight two-node edge is shared equally: each node receives half of length * thickness * traction
* `C82_surface_flux` (PropLoad.v; R+): HeatTransferSurfaceFlux weighs the flux _f along the edge with the test field
* `C82_reaction` (PropLoad.v; R): ReactionDiffusionReaction evaluates _f at the interpolated value and gradient of the concentration and weighs it over the element
* `C82_stokes_surface_force` (PropLoad.v; R+): StokesSurfaceForce does the work of the traction in the velocity field of every dof vector; pressures do not enter

### C83 The follower pressure load and its matrix (partial)

PlaneStrainSurfacePressureUpdatedLagrange returns the load of a pressure normal to the current edge, with resultant pressure * thickness * the turned chord, and as matrix minus the derivative of that load with respect to the displacement (the sign convention of the other updated Lagrange routines). Quantifier: all line elements, rules, displacements, pressures.

*Model and method.* Form of load and matrix; the load is affine in the displacement, so its derivative is explicit; the line rules are exact for the derivative of the end-point term; the refutation translates an edge. Refuted for a single element: the matrix is minus the symmetric part of the derivative of the load (C83_pressure); it differs from the derivative by an end-point term that cancels along closed chains and at fixed ends (C83_boundary). The load itself and its resultant are as stated.

* `C83_pressure` (PropLoad.v; R): the load is that of a pressure P normal to the current edge; the returned matrix is symmetric: it is minus the symmetric part of the derivative of the load
* `C83_resultant` (PropLoad.v; R+): with the library's line elements and rules the resultant of the pressure load is P * thickness times the chord between the current end points, turned by a quarter turn; so the forces on a closed polygon of edges balance
* `C83_boundary` (PropLoad.v; R+): the returned matrix differs from minus the derivative of the load only by a term at the two end points with opposite signs, which cancels along a closed chain of elements and vanishes where the end points are fixed
* `C83_consistent_refuted` (PropLoad.v; R+): on a single element the returned matrix is not the derivative of the load: it resists a translation of the edge

### C84 The homogenization routines give the effective elasticity of a unit cell (proved)

Column c of HomogenizePlaneStrainBodyForce is PlaneStrainStiffness applied to a field of unit strain c. HomogenizePlaneStrainConstitutive integrates, at (r,c), the work on unit strain r of the stress of (unit strain c minus the strain of chi_c), and HomogenizePlaneStrainCheck minus the strain of chi_c; a rigid chi gives thickness*area*D and a chi carrying the unit strain gives 0. When the assembled chi solve K chi = F the summed matrix is the elastic energy of unit strain minus strain of chi, so it is symmetric positive semidefinite. Quantifier: all plane shape functions, elements, rules, materials and characteristic displacements.

*Model and method.* Gauss loop of each routine evaluated entrywise; the columns of D are recovered by testing with unit strains; Hooke's form is bilinear and symmetric, so C = energy + work of chi on the residual K chi - F, and the latter cancels in the sum over the elements.

* `C84_body_force` (PropHom.v; R): column c of the body force does on a displacement the work of the stress of the unit strain c, and is the stiffness matrix applied to any nodal field of that homogeneous strain
* `C84_constitutive` (PropHom.v; R): entry (r, c) of the constitutive matrix is the work on the unit strain r of the stress of the unit strain c less the strain of chi_c
* `C84_check` (PropHom.v; R): entry (r, c) of the check matrix is minus the integral of engineering strain component r of chi_c
* `C84_uniform` (PropHom.v; R): where chi_c is a rigid motion the matrix is thickness times area times the material's own matrix, and where chi_c carries the whole unit strain it is zero while the check matrix is minus the volume on its diagonal
* `C84_energy` (PropHom.v; R): up to the work of chi_r on the residual of the cell equations K chi = F, the constitutive matrix is the elastic energy of the strains e - eps(chi)
* `C84_effective` (PropHom.v; R): if the assembled characteristic displacements solve the cell equations, tested with themselves, the homogenized matrix summed over the elements is symmetric and positive semidefinite

### C85 Streamline upwind and shock capturing terms of the advection equation (proved)

For a nonzero velocity a, AdvectionSUPG, AdvectionShockCapturing and MassSUPG return the matrices of the forms tau (a.grad y)(a.grad z), tau |a|^2 grad y.grad z and tau (a.grad y) z, with h = 2|a| / sum |a.grad N_i| > 0 on every element and tau = (h/2|a|) min(1, |a|h/6k); for k > 0 and positive weights the first two are symmetric, positive semidefinite and ordered, vanish only on fields without change along a (without gradient), and their rows and columns sum to zero. For a zero velocity they divide zero by zero. Quantifier: all plane shape functions, elements, rules, velocities and diffusivities.

*Model and method.* Gauss loops evaluated; sum |a.grad N_i| = 0 would make a orthogonal to the gradients of the coordinates, which are the unit vectors, so it is positive for a <> 0; the order of the two forms is Cauchy-Schwarz for a and grad y. In binary64 a diffusivity k = 0 gives an infinite Peclet number and the advective limit; the model over the reals stops there, and the theorems assume k <> 0.

* `C85_forms` (PropSupg.v; R+): the three routines for a nonzero velocity; the element length along the flow is positive, whatever the element
* `C85_parameter` (PropSupg.v; R+): the stabilisation parameter is positive, never above its advective and diffusive limits, equal to one of them, and continuous where they meet
* `C85_dissipative` (PropSupg.v; R+): both added matrices are symmetric and positive semidefinite, the streamline term is at most the shock capturing term, the first vanishes only without change along the flow and the second only without gradient
* `C85_constants` (PropSupg.v; R+): constant fields are not changed by the added terms, and nothing is added to the balance of the element: all row and column sums vanish; for the SUPG mass matrix all column sums
* `C85_zero_velocity` (PropSupg.v; R+): with zero velocity the parameter is zero divided by zero, on every element

### C86 The Wilson-Taylor routines return the stiffness condensed over the incompatible modes (proved)

PlaneStiffnessWilsonTaylor, for a symmetric positive definite material, positive thickness and positive Jacobians, returns the stiffness whose energy on a nodal displacement is the least elastic energy of the element over the amplitudes of the incompatible displacements 1 - r^2: the resulting stress does no work on the modes, the matrix is symmetric, positive semidefinite and free of rigid motions. The call fails with a division by zero exactly when some nonzero mode combination is strainless at all integration points, which cannot happen when the rule has points with r0 r1 of both signs and always happens with one point. On the four node square with the four point rule only rigid motions have zero energy, a rectangle reproduces the energy of pure bending exactly, and homogeneous stress states are reproduced exactly when the element is a parallelogram. Quantifier: all shape functions, rules, elements, materials and thicknesses in the stated class; the four node square with the four point rule for the last three claims.

*Model and method.* The 4 x 4 determinant and inverse of the model are computed in closed form, the loop invariant gives the three blocks as pairings of strains, and a definite block has a nonzero determinant by its leading minors; minimality is the completed square; the mode strains are excluded by the sign of the Jacobian at two points; the null space and the patch test are solved by sums over the four Gauss points with signs.

* `C86_defined` (PropWilson.v; R): on an admissible call the routine succeeds exactly when no nonzero combination of the modes is strainless at all integration points; otherwise it divides by zero
* `C86_points` (PropWilson.v; R): the modes are strained whenever the Jacobian is positive and the rule has a point with r0 r1 > 0 and one with r0 r1 < 0; with a single integration point they never are
* `C86_condensed` (PropWilson.v; R): the returned matrix is the condensed stiffness. For each displacement z there are mode amplitudes a such that the stress of z plus modes does no work on any mode, and the force of the matrix does on y the work of that stress on the strain of y
* `C86_energy` (PropWilson.v; R): the energy of the matrix is the least elastic energy over the mode amplitudes; the matrix is symmetric and positive semidefinite
* `C86_rigid` (PropWilson.v; R): rigid motions are in the kernel
* `C86_null` (PropWilson.v; R+): on the four node square with the four point rule there are no further zero energy displacements
* `C86_patch` (PropWilson.v; R+): patch test. The four node square with the four point rule answers every homogeneous displacement gradient with the forces of the homogeneous stress exactly when the element is a parallelogram
* `C86_plane_strain` (PropWilson.v; R): the plane strain routine is the call with Hooke's matrix, which is an admissible material for E > 0 and -1 < V < 1/2
* `C86_bending` (PropWilson.v; R+): pure bending. On a rectangle with half sides a and b about the origin the displacement (kappa x y, 0) of the nodes has exactly the energy of a beam of plane strain modulus E / (1 - V^2) bent to curvature kappa

### C87 The Newton passes of MMA and CONLIN take the largest safe step and accept the first decrease (proved)

In UpdateVariables of MMA and CONLIN one pass of the inner loop moves the primal-dual point along the computed direction by tau/2^k. tau is the largest step of at most 1 that, prolonged by one per cent, keeps all variables between their move limits and all multipliers and slacks nonnegative. k is the first of 0, 1, 2, ... for which the norm of the residuals of the perturbed optimality conditions decreases, or 49 when none of the 50 trials decreases it. Whenever the direction is the Newton direction the squared norm has the slope -2 times its value along it, so a decrease exists for all small steps. Quantifier: every subproblem produced from admissible arguments, every strictly interior point and every barrier parameter.

*Model and method.* The first step size is shown to be the maximum of the admissible steps from the maxima computed by the code; the loop of 50 trials is followed by induction, with the norm of the code identified with the sum of squares of the nine families of residuals; the slope comes from the Newton equations residual by residual.

* `C87_mma_line_search` (PropMMAStep.v; RC): one pass of MMA's inner loop moves along the computed direction. The first trial is the largest step of at most 1 that keeps every variable and multiplier inside with a margin of one per cent; it is halved until the squared norm of the optimality residuals decreases, at most 49 times
* `C87_conlin_line_search` (PropMMAStep.v; RC): the same for CONLIN
* `C87_newton_descent` (PropMMAStep.v; R): where the direction is the Newton direction it is a direction of descent: the squared residual has the slope -2 times its value, so every sufficiently small step decreases it unless all residuals vanish

### C88 Bisection for eigenvalues of tridiagonal matrices (partial)

For a symmetric tridiagonal matrix with nonzero off-diagonal entries, the sign changes counted at a point are the number of eigenvalues below it, and BisectionMethod returns eigenvalue number mode (from the smallest) up to 1e-13 times the largest absolute row sum, within 45 passes. For the zero matrix it returns an uninitialised variable, and with a zero off-diagonal entry it can miss eigenvalues. Quantifier: all tridiagonal matrices with nonzero off-diagonal entries, all modes.

*Model and method.* Sturm sequence theory of the leading minors (SturmMath: interlacing of the roots of the characteristic polynomials, exact sign change count by induction on the order), then the loop invariant number of eigenvalues below a1 <= mode < number below a2. Two refuted cases by computation. Proved for tridiagonal matrices with nonzero off-diagonal entries (C88_sign_count, C88_bisection). False otherwise: with all entries zero the function returns an uninitialised variable (C88_bisection_zero_refuted), and with a zero off-diagonal entry the sign count can miss eigenvalues (C88_bisection_decoupled_refuted).

* `C88_sign_count` (PropLanczos.v; R+): for a symmetric tridiagonal matrix with nonzero off-diagonal entries the sign changes counted by BisectionMethod at a point are the number of eigenvalues below that point
* `C88_bisection` (PropLanczos.v; R+): BisectionMethod returns the eigenvalue number [mode] (counted from the smallest) up to 1e-13 times the largest absolute row sum; 45 passes of its loop are enough
* `C88_bisection_zero_refuted` (PropLanczos.v; R): C88, a refuted claim: when all entries are zero the loop never runs and the function returns an uninitialised variable (the eigenvalue is 0)
* `C88_bisection_decoupled_refuted` (PropLanczos.v; R): C88, a refuted claim: with a zero off-diagonal entry the counting can miss eigenvalues; for the diagonal matrix (0, -1) the function returns a number in [0, 1] for the smallest eigenvalue, which is -1

### C89 Inverse power method for tridiagonal matrices (proved)

Where no leading block of T - lambda is singular, InversePowerMethod returns a unit vector y; for each unit eigenvector u of T with eigenvalue t, |(T - lambda) y|^10000 |u_0| <= |t - lambda|^10000, and when the other eigenvalues keep the distance g from lambda, (1 - (y.u)^2) u_0^2 <= (|t - lambda|/g)^20000. Quantifier: all tridiagonal matrices with nonzero off-diagonal entries, all such lambda.

*Model and method.* The sweeps are the elimination of T - lambda (SturmMath pivots), so 10000 passes give a positive multiple of (T - lambda)^-10000 e_0; expansion in the orthonormal eigenvectors and Parseval give the bounds.

* `C89_inverse_power` (PropLanczos.v; R+): where no leading block of T - lambda is singular, InversePowerMethod runs and returns a unit vector y. For every unit eigenvector u of T with eigenvalue t: the residual satisfies |(T - lambda) y|^10000 |u_0| <= |t - lambda|^10000, and if the other eigenvalues have at least the distance g from lambda, then (1 - (y.u)^2) u_0^2 <= (|t - lambda|/g)^20000

### C90 Lanczos process (partial)

For symmetric A, when Lanczos returns, its vectors q are orthonormal starting with the normalised diagonal of A, alpha and beta are the entries of the tridiagonal projection Q^T A Q, the returned eigenvalues are those of the projection in increasing order up to 3e-13 |A|, and the vectors are unit combinations of q; with as many steps as rows they are the eigenvalues of A itself and the vectors satisfy the residual bound of the inverse power method. A zero diagonal or a starting vector in an invariant subspace make it divide by zero. Quantifier: all symmetric sparse matrices, numbers of steps.

*Model and method.* Induction over the three-term recurrence gives orthonormality and the projection; m orthonormal vectors in n dimensions give m <= n; with C88, C89 on the tridiagonal matrix; for m = n the last residual is zero, so the spectra agree. Breakdowns by computation. C90_process, C90_lanczos and C90_lanczos_full describe every run that returns. The claim that every symmetric matrix is handled is false: the starting vector is the diagonal, so a zero diagonal divides by zero (C90_zero_diagonal_refuted), and so does an invariant subspace of lower dimension (C90_breakdown_refuted).

* `C90_process` (PropLanczos.v; R+): the Lanczos process on a symmetric matrix, with or without the additional orthogonalisation of RestartLanczos: if it returns, the number of steps is at most the order, the vectors q are orthonormal, the first one is the normalised diagonal of A, and the returned alpha and beta are the entries of the projection Q^T A Q, which is tridiagonal
* `C90_lanczos` (PropLanczos.v; R+): when Lanczos returns, its m results belong to an orthonormal family q (starting with the normalised diagonal of A): eigenvalue number k is the k-th smallest eigenvalue of the projection of A to their span up to 3e-13 times the norm of A; the vector is Q y with |y| = 1, and y is an approximate eigenvector of the projection in the sense of the inverse power method
* `C90_lanczos_full` (PropLanczos.v; R+): with as many steps as rows, a returning Lanczos gives all eigenvalues of the symmetric matrix A, in increasing order, each up to 3e-13 times the norm of A, and unit vectors x whose residual |A x - e x| satisfies |A x - e x|^10000 |v.d| <= |r_k - e|^10000 |d| for every unit eigenvector v of that eigenvalue (d is the diagonal of A, the starting vector)
* `C90_zero_diagonal_refuted` (PropLanczos.v; R+): C90, a refuted claim: for the symmetric matrix [[0,1],[1,0]] the starting vector (the diagonal) is zero and every run divides by zero
* `C90_breakdown_refuted` (PropLanczos.v; R+): C90, a refuted claim: when the starting vector lies in an invariant subspace the process breaks down: on the identity of order 2 two steps divide by zero

### C91 RestartLanczos equals Lanczos (proved)

In exact arithmetic the additional orthogonalisation of RestartLanczos changes nothing: for symmetric matrices it returns what Lanczos returns. Quantifier: all symmetric sparse matrices, numbers of steps.

*Model and method.* In each step the vectors subtracted have coefficient zero by the orthogonality of C90.

* `C91_restart_lanczos` (PropLanczos.v; R+): in exact arithmetic the additional orthogonalisation of RestartLanczos changes nothing for symmetric matrices: it returns what Lanczos returns, faults included

### C92 ShiftedInvertLanczos (proved)

For symmetric A with A - sigma positive definite, when ShiftedInvertLanczos returns, result k is sigma + 1/theta with theta the k-th largest eigenvalue of a tridiagonal T whose recurrence Q T + w e_m^T solves (A - sigma) z_j = q_j column by column up to 1e-10, with unit q_j; the vector is x = Q y with |y| = 1 and (A - sigma)(theta x + Q(T y - theta y) + y_m w) = x up to 1e-10 sum |y_j|. Quantifier: all such matrices, shifts, numbers of steps.

*Model and method.* The shifted matrix entry by entry (C03, C08); ScalingCG reaches its tolerance on positive definite matrices (C24), so the recurrence holds with a residual below 1e-10 in every step; linearity and the triangle inequality give the residual of the returned vectors.

* `C92_shift` (PropLanczos.v; R): the matrix A - sigma I that ShiftedInvertLanczos works on
* `C92_shifted_invert` (PropLanczos.v; R+): ShiftedInvertLanczos for a symmetric A with A - sigma positive definite. If it returns, there are unit vectors q_j (q_0 the normalised diagonal of A - sigma, neighbours orthogonal), a tridiagonal T and a vector w orthogonal to the last q with: the columns z_j of Q T + w e_m^T solve (A - sigma) z_j = q_j up to 1e-10. Result number k is sigma + 1/theta where theta is the k-th largest eigenvalue of T (to the bisection accuracy), with the vector x = Q y, |y| = 1, y from the inverse power method; and (A - sigma)(theta x + Q (T y - theta y) + y_m w) = x up to 1e-10 sum |y_j|

### C93 Generalised eigenvalue problem by GeneralShiftedInvertLanczos (partial)

GeneralShiftedInvertLanczos and GeneralRestartShiftedInvertLanczos return eigenvalues of A x = mu B x nearest the shift. Quantifier: all symmetric positive definite A, B.

*Model and method.* Refuted by the problem of order one A = (1), B = (4): eigenvalue 1/4, both functions return 1/16. The starting vector is not normalised in the B norm. False of the code: the starting vector is normalised in the Euclidean norm instead of the norm of B; C93_general_refuted gives a 1 x 1 pair with eigenvalue 1/4 for which both functions return 1/16.

* `C93_general_refuted` (PropLanczos.v; R+): C93, a refuted claim: GeneralShiftedInvertLanczos and GeneralRestartShiftedInvertLanczos do not return the eigenvalues of A x = mu B x: the starting vector is normalised with the Euclidean norm and not with the norm of B. For A = (1), B = (4) the only eigenvalue is 1/4; both functions return 1/16 up to 1e-9

### C94 Lagrange interpolation and its derivative (proved)

LagrangeInterpolation(_xs, _x) with distinct points _xs returns one value N_i(_x) per point. N_i is 1 at point i and 0 at the others, and the sum of N_i(x) p(x_i) is p(x) for every polynomial p with as many coefficients as there are points. LagrangeInterpolationDerivative returns the derivatives of the same N_i, hence the exact derivative of such a polynomial. If two points coincide both functions divide by zero. Quantifier: every list of points, every argument, every polynomial of the stated degree.

*Model and method.* GenModel.v writes both double loops over std::vector with the quotients as faulting divisions. GenProof.v proves that the loops compute the products (rows_fold, cell_fold), that N_i has degree below the number of points, and that a polynomial with more roots than its degree allows is zero (pdeg_roots), which gives the reproduction. The derivative is the product rule by induction over the list of factors.

* `C94_lagrange_basis` (PropGen.v; R): LagrangeInterpolation with distinct points returns the values N_i(x) of the Lagrange basis: N_i is 1 at point i and 0 at the other points, and every polynomial with as many coefficients as there are points is reproduced.
* `C94_lagrange_derivative` (PropGen.v; R): LagrangeInterpolationDerivative returns the derivatives of the functions N_i of LagrangeInterpolation, so it differentiates every polynomial with as many coefficients as there are points without error.
* `C94_repeated_point` (PropGen.v; RC): With a repeated point both functions divide by zero.

### C95 Nodal and elemental averages and the centre of gravity (proved)

InterpolateNodalFromElemental(nodesize, ue, elements, un0) gives each node (un0 + the sum of the values of the elements that contain it) divided by their number. With un0 = 0 the nodal values stay between any bounds of the elemental values and the sum of nodal values weighted with the number of adjacent elements equals the sum of elemental values weighted with the number of nodes. InterpolateElementalFromNodal gives each element the mean of its nodes. The overloads for vectors act component by component. CenterOfGravity is the mean of the nodes, and an affine nodal field is averaged to its value there. A node outside all elements makes the whole call divide by zero. Quantifier: every mesh, every number of nodes and elements, every value.

*Model and method.* GenModel.v models the two loops with the tables un and count. GenProof2.v proves the loop invariant: after k elements the entry of node n is un0 plus the values received from the first k elements and the counter is their number; mean, bounds and the weighted sum follow. The same proof serves numbers and vectors (a type with a partial addition and division).

* `C95_nodal_mean` (PropGen.v; R): InterpolateNodalFromElemental: the value at a node is the mean of the values of the elements which contain it, counted with multiplicity; a start value u0 is added to the sum. Every node must belong to an element.
* `C95_nodal_bounds` (PropGen.v; R): With the default start value 0 the nodal values stay between the bounds of the elemental values, and the sum weighted with the number of adjacent elements is the sum of the elemental values weighted with the number of nodes of the element.
* `C95_nodal_vector` (PropGen.v; R): The overload for a class of vectors acts component by component.
* `C95_isolated_node` (PropGen.v; R): A node which no element contains makes the call divide by zero: the means of the other nodes are lost as well.
* `C95_elemental_mean` (PropGen.v; R): InterpolateElementalFromNodal: the value of an element is the mean of the values of its nodes, for numbers and, by components, for vectors.
* `C95_center_of_gravity` (PropGen.v; R): CenterOfGravity is the mean of the nodes of the element, and a nodal field that is affine in the position is averaged to its value there.

### C96 Numerical integration on a line (partial)

NumericIntegrationOnLine on nodes with one coordinate is the quadrature sum of f(x(r)) |x'(r)|. For nodes in the plane or in space, the curves that the length element sqrt(dXdr dXdr^T) is written for, the call always fails: X is created with one column and Vstack asserts equal numbers of columns. Quantifier: every shape function of line type, every rule, every integrand, every element.

*Model and method.* GenModel.v calls the element models; the sum is gausss_ok0 with the entry formulas of the Jacobian row. The failure is the first assertion of Vstack. The quadrature formula is proved for nodes with one coordinate (C96_line_integral). For curves in the plane or in space every call fails an assertion (C96_curves_in_the_plane_refuted, general first part and witness).

* `C96_line_integral` (PropGen.v; R+): NumericIntegrationOnLine on nodes with one coordinate is the quadrature sum of f(x(r)) |x'(r)|.
* `C96_curves_in_the_plane_refuted` (PropGen.v; R+): An edge of a plane or solid mesh cannot be integrated: the first node with a number of coordinates other than one violates the assertion of Vstack, whatever the integrand.

### C97 The beam element (proved)

BeamLinearIsotropicElastic returns the matrix of a solid swept out by the two normalised directors of the nodes: its bilinear form is the quadrature, over the axis and the section, of the volume element times E times the axial strains plus 5/6 G times the transverse shear strains, where the rotation of a node turns its directors; dofs 6i..6i+5 belong to node i. The matrix is symmetric, positive semidefinite for E >= 0, 1 + V > 0 and a positive volume element, and every rigid motion produces no force. For two nodes, one point on the axis and a section rule exact to order 2 a straight beam of any position has the Timoshenko matrix in closed form: EA/l, E a b^3/12 and E b a^3/12 over l, shear 5/6 G A, and torsion 5/6 G times the polar moment of the section. Quantifier: every line shape function, every pair of rules, every number and position of nodes, directors, sections and moduli.

*Model and method.* BeamModel.v follows the function line by line (the six rows of B, the three rows of P, the stacked Jacobian and its inverse); BeamProof.v shows that the columns of B are the Voigt components of the gradient given by the chain rule and that P reads off the strains along the frame; BeamMain0.v and BeamMain1.v derive symmetry, definiteness, rigid motions (the gradient of a rigid motion is skew) and the closed form (the gradient written in the orthonormal frame, moments of the section).

* `C97_beam_form` (PropBeam.v; R+): The matrix of BeamLinearIsotropicElastic is that of a solid swept out by the two unit directors of the nodes: its form is the quadrature, over the axis and over the section, of the volume element times the energy of the axial strain and of the two transverse shear strains. The rotation of a node turns its directors. The dofs of node i are 6 i .. 6 i + 5 in the order of the list of degrees of freedom.
* `C97_beam_definite` (PropBeam.v; R+): The matrix is symmetric, and positive semidefinite for E >= 0 and 1 + v > 0 if the volume element and the weights are positive.
* `C97_beam_rigid` (PropBeam.v; R+): A rigid motion - translation c0 and small rotation om of the nodes, with the nodal rotations equal to om - produces no force, whatever the geometry.
* `C97_straight_beam` (PropBeam.v; R+): Closed form: with two nodes, one point on the axis and a section rule exact to order 2, the matrix of a straight beam of length len with rectangular section a x b is that of the Timoshenko beam with axial stiffness E a b / len, bending stiffnesses E a b^3 / 12 and E b a^3 / 12, shear stiffness 5/6 G a b and torsional stiffness 5/6 G (a b^3 + b a^3) / 12 (the polar moment), in any position and with directors of any length.

### C98 The shell elements (proved)

ShellLinearIsotropicElastic (5 components per node) and ShellLinearIsotropicElastic2 (6 components) return the matrix of a solid swept out by the unit normals of the surface at the nodes: the form is the quadrature, over the surface and the thickness, of the volume element times the plane stress energy of the layer with 5/6 of the transverse shear energy. Both are symmetric, positive semidefinite for E >= 0 and |V| < 1, and produce no force under rigid motions. The energy of the element with 6 components is that of the element with 5 applied to the rotations about the two tangents, hence rotations about the nodal normals cost no energy. A flat shell is the Reissner-Mindlin plate with membrane stiffness (t, t^3/12, 5/6 G t), and its membrane part is the plane stress element. Quantifier: every surface shape function, every pair of rules, every number and position of nodes, every thickness and modulus.

*Model and method.* BeamModel.v, both functions through one body with the table of B as argument; BeamProof2.v shows that the nodal frames are orthonormal and right-handed and relates the two tables to the change of the normal; BeamMain2.v computes the frames of a flat shell and uses the invariance of the isotropic plane stress energy under rotations in the plane.

* `C98_shell_form` (PropBeam.v; R+): The matrices of ShellLinearIsotropicElastic (five components per node, rotations about the two tangents of the node) and ShellLinearIsotropicElastic2 (six components) are those of a solid swept out by the unit normals of the surface at the nodes: the form is the quadrature, over the surface and over the thickness, of the volume element times the energy of plane stress in the layer with transverse shear.
* `C98_shell_definite` (PropBeam.v; R+): Both matrices are symmetric, and positive semidefinite for E >= 0 and -1 < v < 1 if the volume element and the weights are positive.
* `C98_shell_rigid` (PropBeam.v; R+): Rigid motions produce no force: the nodal rotations are om, or, for the element with five components, the components of om along the two tangents.
* `C98_drilling` (PropBeam.v; R+): The element with six components has no stiffness against rotations of the nodes about their normals: n further zero energy modes, so that the assembled matrix of a flat shell is singular unless these dofs are fixed.
* `C98_same_energy` (PropBeam.v; R+): The two elements agree: the energy of the element with six components is that of the element with five, applied to the components of the rotations along the two tangents of each node.
* `C98_flat_shell` (PropBeam.v; R+): Flat shells: if the nodes lie in the plane z = 0 and the rule over the thickness is exact to order 2, the matrix with six components is that of a Reissner-Mindlin plate with membrane stiffness: membrane energy times t, bending energy of the tilt (theta_y, - theta_x) times t^3 / 12, and shear energy 5/6 G t of the difference between the slope and the rotation, quadrature points of the surface rule only.
* `C98_flat_membrane` (PropBeam.v; R+): Without deflection and rotation the flat shell is the plane stress element of the same thickness.

### C99 Point location of the triangle mesher (proved)

For an element whose three nodes run counterclockwise, Element::inouton of a node returns a value from -3 to 3: it is not negative exactly when the node lies in the closed triangle; it is 0 exactly when the node is to the left of all three sides by more than 1e-10 (so strictly inside); i+1 means inside with a cross product of at most 1e-10 with side i; -(i+1) means not in the triangle and not more than 1e-10 to the left of side i. Quantifier: for all nodes, all counterclockwise elements and all points.

*Model and method.* the six cross products are twice the signed areas of triangles; case analysis on their signs; the closed triangle and its interior are stated with barycentric coordinates.

* `C99_inouton` (PropDelaunay.v; R): [Element::inouton] of a node against a counterclockwise element always returns. The result is not negative exactly when the node lies in the closed triangle; it is 0 exactly when the node is to the left of all three sides by more than the margin 1e-10, hence in the interior; a positive result [i + 1] means that the node is in the triangle with a cross product of at most 1e-10 with side [i]; a negative result [-(i + 1)] means that the node is not in the triangle and is not to the left of side [i] by more than the margin.
* `C99_minus_not_beyond` (PropDelaunay.v; R): C99, what it does not say: a result [-(i + 1)] does not say that the node lies beyond side [i]. For the triangle (0,0), (1,0), (0,1) and the node (2,0) the result is -3, and the node is on the line of side 2.

### C100 Subdivision of the triangle mesher keeps a triangulation (proved)

One round of makefinemesh on a triangulation (counterclockwise elements, mutual neighbors) halves a longest side and returns: the swapping loop ends. The result is a triangulation with the same total area, one more node at the midpoint, one or two more elements, consistent boundary marks, and no swap left at the new node. The same holds for getelementin when inouton is 0 and no neighbor of the node on its boundary list is a corner yet; without that condition a forced swap may turn an element over. Quantifier: for all triangulations, all longest sides, all stack contents reached.

*Model and method.* a swap and the three insertions replace two, one or two elements by two, three, four or two others with the same outer sides, so the links of all other elements are only renamed; areas by the polynomial identities of the cross product; a swap shortens the sum of all sides, and there are only finitely many lists of corners of a given length, which gives termination; the stack invariant says that every element at the new node that is not on the stack has no swap left.

* `C100_refine` (PropDelaunay.v; R+): one round of the subdivision in [makefinemesh]. On a triangulation with at least one element it halves a longest side, inserts the midpoint with [getelementon] and swaps sides until the stack is empty, and this ends: from some amount of fuel on the result is the same. The result is again a triangulation of counterclockwise elements with mutual neighbors and the same total area. There is one more node, at the midpoint, the old nodes are where they were; there are two more elements, or one more when the side has no neighbor. The new node is a boundary node exactly when the side was marked, the boundary marks stay consistent, every interior node stays a corner, and no swap is left at the new node.
* `C100_insert_inside` (PropDelaunay.v; R+): C100, insertion in an element: when [inouton] of an unused node against element [k] is 0 and neither neighbor of the node on its boundary list is a corner yet, [getelementin] ends, splits the element in three, and keeps the triangulation, its total area and its marks; no swap is left at the node.
* `C100_forced_swap_turns_over` (PropDelaunay.v; R+): C100, without the condition on the neighbors on the boundary list the elements may turn over. [swapping] swaps whenever the node beyond the side is the next one on the list, also when the two elements form a quadrilateral that is not convex: an insertion inside a counterclockwise element of a correct mesh leaves a clockwise element.

### C101 Smoothing of the triangle mesher (proved)

laplacesmoothing on a mesh with mutual neighbors and consistent boundary marks returns. It leaves the elements and the boundary nodes as they are, keeps the total signed area, and moves every interior node to the mean of the nodes on a closed ring of elements around it, the nodes with smaller numbers having been moved already. Every half plane that contains the nodes before contains them after. Elements can be turned over by it. Quantifier: for all meshes with mutual neighbors and consistent boundary marks, all numbers of repetitions.

*Model and method.* Around an interior node the map element -> neighbor is injective on the elements at the node, so the walk returns to its start within the number of elements; moving a node changes the areas of the ring only, and their sum telescopes; the new position is a mean, so half planes are kept. The loop over the nodes is a fold with these facts as invariant. The turned element is an arrow head computed by hand.

* `C101_smoothing` (PropDelaunay2.v; R): [laplacesmoothing] on a mesh with mutual neighbors and consistent boundary marks, whose elements may have any orientation, returns with [length es] steps per node. The elements and the boundary nodes stay as they are and the total area is unchanged. An interior node moves to the mean of the nodes around it, taken over a closed ring of elements; of these the ones with a smaller number have been moved already.
* `C101_half_plane` (PropDelaunay2.v; R): C101, the nodes stay within the region: every half plane that contains all nodes before the smoothing contains all nodes after it.
* `C101_repeated` (PropDelaunay2.v; R): C101, repeated: the ten smoothings at the end of the constructor (any number of them) return as well and keep the elements, the boundary nodes and the total area.
* `C101_turns_over` (PropDelaunay2.v; R): C101, what is lost: the smoothing may turn elements over. In an arrow head with one interior node near the tip all elements are counterclockwise before and two are clockwise after it.

### C102 Renumbering in the triangle mesher (proved)

sortelement makes b the neighbor at a side exactly when b is the first other element with that side in the opposite direction, and leaves the side without neighbor exactly when there is none; if no side occurs twice in one direction the neighbors are mutual. sortnode removes exactly the nodes that were never inserted and gives every corner the new number of the same node, different nodes keeping different numbers, with areas, neighbors and marks unchanged. Quantifier: for all lists of nodes and elements whose corners are inserted nodes.

*Model and method.* find returns the first index that satisfies the condition, and the condition is the equality of the reversed sides (case analysis over the three sides); the repeated decrements are a right fold whose result is the number minus the number of unset nodes before it, which is the position in the filtered list.

* `C102_sortelement` (PropDelaunay3.v; closed): [sortelement] keeps the nodes, the corners and the flags and makes element [b] the neighbor at a side exactly when [b] is the first other element that has the side in the opposite direction; a side has no neighbor exactly when there is none.
* `C102_mutual` (PropDelaunay3.v; closed): C102, the links after [sortelement]: if no side occurs twice in the same direction, the neighbors are mutual, which is what the subdivision and the smoothing need.
* `C102_sortnode` (PropDelaunay3.v; R): [sortnode] removes the nodes that are not set, in place, and gives every corner of every element the new number of the same node; different nodes keep different numbers. Neighbors, boundary marks and flags are kept, and so are the areas.

### C103 What the constructor of the triangle mesher keeps (proved)

Whenever Delaunay(x, outer, inner, maxsize, ...) returns, for lists with numbers in range, the nodes on the boundary lists come first, in the order of their numbers and exactly where they were given, marked as boundary nodes; there is one further node for every round of the subdivision; every element is active with corners in range; and maxsize was not negative. The mesh before the subdivision has exactly the listed nodes, and every element has all corners on one outer list without running along it, or a corner on an inner list without running along it; so around a convex polygon the elements are counterclockwise if the list is clockwise and clockwise if it is counterclockwise. If the rough mesh is a triangulation and the smoothing turns no element over, the result keeps the area of the rough mesh, mutual neighbors and all nodes within every half plane that contains the given ones, and no side before the last round was longer than maxsize; a maxsize that is not positive never ends. Without any element left the constructor reads elements[0] of an empty vector. Quantifier: for all node coordinates, boundary lists, bounds and numbers of rounds.

*Model and method.* `DelaunayProof11.v` carries an invariant without any geometric condition through the insertion, search, swaps, deactivation, deletion and renumbering (corners are inserted nodes, inserted nodes are boundary nodes, coordinates never change); `DelaunayProof12.v` does the same for the subdivision and the smoothing. `DelaunayProof13.v` iterates C100 and C101 over the rounds. `DelaunayProof14.v` runs the constructor on a triangle for the examples.

* `C103_roughmesh` (PropDelaunay4.v; R+): C103, the rough mesh, for all inputs: whenever the constructor gets to the subdivision, the mesh it has then has exactly the nodes on the boundary lists, in the order of their numbers, each at its given place, set and marked as a boundary node. [K] lists the given numbers of the nodes. Every element is active, has its corners in range, and either has all corners on one outer list and does not run along this list, or has a corner on an inner list and does not run along it.
* `C103_direction` (PropDelaunay4.v; R+): C103, the direction of the boundary list: for one outer list around a convex polygon, every element of the rough mesh with three different corners is counterclockwise if the list runs clockwise, and clockwise if the list runs counterclockwise. [s] is the sign of the direction of the list. The constructor thus needs clockwise lists.
* `C103_constructor` (PropDelaunay4.v; R+): C103, the constructor, for all inputs: whenever it returns, the nodes on the boundary lists come first, in the order of their numbers and exactly where they were given, and are still boundary nodes; there is at least one further node, one for every round of the subdivision, and there are more elements than rounds; every element is active and has its corners in range; and the bound on the sides was not negative.
* `C103_no_elements` (PropDelaunay4.v; R+): C103, no element left: when no element of the rough mesh is left, as when there is no boundary list, the subdivision reads [elements[0]] of an empty vector.
* `C103_rounds` (PropDelaunay4.v; R+): C103, the rounds of the subdivision: from a triangulation with consistent boundary marks, as long as the smoothing turns no element over, the subdivision either needs more rounds than it is given or returns a triangulation that keeps what [kept] says after [r + 1] of them; in the triangulation before the last round no side was longer than the bound.
* `C103_nonpositive` (PropDelaunay4.v; R+): C103, a bound that is not positive: then no number of rounds is enough (the loop of the code does not end), under the same conditions.
* `C103_whole` (PropDelaunay4.v; R+): C103, the whole constructor: if the rough mesh is a triangulation whose unlinked sides are marked, and the smoothing turns no element over during the subdivision, then the constructor either needs more rounds or returns a mesh of active elements with mutual neighbors, consistent boundary marks, the total area of the rough mesh, all given nodes in place and all nodes within every half plane that contains the given nodes.

### C104 Nodes, elements and edges handed out by the triangle mesher (proved)

Whenever the constructor of Delaunay returns, for lists with numbers in range, GenerateNodes begins with the nodes on the boundary lists exactly as given, in the order of their numbers, followed by one node per round of the subdivision; GenerateElements and GenerateEdges give triples and pairs of numbers of these nodes, and no element is left out. When neighbors are mutual and agree on the marks and unlinked sides are marked, the edges form closed curves (as many begin at a node as end there) and the cross products over the edges add up to the areas of the elements. GenerateFixedlist gives one zero entry for each node that satisfies the predicate and each component; a negative component is stopped by the assertion, an empty list of components is read past its end. Quantifier: for all inputs on which the constructor returns, all meshes with mutual neighbors, all predicates and lists of components.

*Model and method.* The ranges come from C103. For the edges, the map from a side to the same side of the element beyond it is a sign-changing involution on the sides that are not marked (`DelaunayProof15.v`), so every antisymmetric function of the sides sums to the same value over the edges as over the elements.

* `C104_outputs` (PropDelaunay5.v; R+): C104, for all inputs: whenever the constructor returns, [GenerateNodes] begins with the nodes on the boundary lists, in the order of their numbers and exactly as they were given, followed by at least one further node; [GenerateElements] gives triples and [GenerateEdges] pairs of numbers of nodes of [GenerateNodes], and all elements are given.
* `C104_shoelace` (PropDelaunay5.v; R): C104, the boundary of the mesh: if the elements are active, neighbors are mutual and agree on the marks, and sides without neighbor are marked (as in the meshes of C103_whole), then the sum of the cross products over [GenerateEdges] is the sum of twice the areas of [GenerateElements].
* `C104_closed` (PropDelaunay5.v; R): C104, the boundary is closed: under the same conditions as many edges of [GenerateEdges] begin at a node as end there.
* `C104_fixedlist` (PropDelaunay5.v; R): C104, [GenerateFixedlist]: with numbers of components that are not negative it gives exactly one entry with the value zero for each node that satisfies the predicate and each component of the list, in order; with a negative number it is stopped by the assertion, and with an empty list it reads past the end of the list.

### C105 The patch test: affine fields solve the assembled plane problems exactly (proved)

On every mesh of plane elements (3-node and 6-node triangles, 4-node and 8-node quadrilaterals, mixed, distorted, with nonzero Jacobians) integrated with the rules of the library meant for them, PlaneStrainStiffness, PlaneStressStiffness, PlaneStiffness, HeatTransfer and Diffusion give element forces that cancel at every node inside the mesh when the nodes hold an affine field. Therefore, if affine values are prescribed at all other nodes and there is no load, the assembled system has a solution for which Disassembling gives exactly the affine field. The nodes of SquareMesh and of the triangle mesher that lie on no edge of GenerateEdges are inside in this sense, and their elements are admissible. Quantifier: for all meshes, node coordinates, material constants, affine fields and prescribed values.

*Model and method.* For an affine field the gradient recovered by the inverse Jacobian is constant, so the force of an element at a node is the constant flux times the integral of the gradient of the shape function over the element, which is computed exactly by the rule because the integrand is a polynomial the rule integrates (`PatchProof.v`); that integral is a sum over the sides at the node of terms that change sign with the direction of the side (`PatchProof2.v`), so the terms cancel at a node around which every side occurs equally often in both directions. `PatchProof3.v` shows that the solutions of the assembled system are exactly the fields in equilibrium; `PatchProof4.v` and `PatchProof5.v` treat the rules and the meshes.

* `C105_rules` (PropPatch.v; R+): C105, the rules: the triangle and square rules of the library together with the plane shape functions they are meant for.
* `C105_runs` (PropPatch.v; R): C105, the elements: on a mesh of plane elements, of one kind or mixed, with nonzero Jacobians, the routine returns a matrix for every element, and these fit every table that has the dofs of the nodes.
* `C105_patch` (PropPatch.v; R): C105, the patch test: when the dofs hold an affine field, the element forces sum up to zero at every node inside the mesh.
* `C105_solution` (PropPatch.v; R): C105, the assembled system: if no element has a load and no nodal load is given, the prescribed values are those of a field that is affine on the elements, and every dof that is not prescribed belongs to a node inside the mesh, then the assembled system has a solution for which Disassembling gives this affine field.
* `C105_square` (PropPatch.v; R): C105, SquareMesh: its rectangles, with four or eight nodes, are admissible elements for every sufficient rule, and a node that is on none of the edges of GenerateEdges is inside the mesh.
* `C105_delaunay` (PropPatch.v; R): C105, the triangle mesher: if neighbors are mutual and agree on the marks, and sides without neighbor are marked (as in the meshes of C103_whole), and no triangle is degenerate, then the elements of GenerateElements are admissible, and a node that is on none of the edges of GenerateEdges is inside the mesh.

### C106 A mesh that is held gives a positive definite system, which CG solves (proved)

On every mesh of 3-node triangles, 4-node quadrilaterals (integrated with a rule with three points that are not on a line) or 4-node tetrahedra with positive Jacobians and positive weights, if every node with a free dof is held - prescribed in all components, or in an element with held nodes that fix its rigid motions (one node for a temperature, two different nodes in the plane, three nodes not on a line in space) - then HeatTransfer, Diffusion, PlaneStrainStiffness, PlaneStressStiffness and SolidLinearIsotropicElastic with admissible constants, SetDirichlet, Renumbering, Assembling and the CSR conversion give a symmetric positive definite matrix; the system has exactly one solution, which Disassembling turns into the field with the prescribed values and equilibrium at all free dofs; CG and ScalingCG with as many iterations as equations report convergence and give a field whose forces are within the tolerance of the loads at every free dof; in the patch test the only solution is the affine field. With the one-point rule Gauss1Square every quadrilateral has alternating nodal values without force. Quantifier: for all meshes, node coordinates, supports, loads, admissible material constants and tolerances.

*Model and method.* An element without energy for the nodal values has zero strain at every integration point, since every weight times the Jacobian is positive and the material law is positive (`StableProof.v`); for these shapes zero strain at the points means a rigid motion (`StableProof2.v`: constant gradient for triangles and tetrahedra, a gradient that vanishes at three points for the quadrilateral), and a rigid motion that is zero at the supporting nodes is zero. By induction along the held elements all free values are zero, so the quadratic form of the assembled matrix, which is the sum of the element energies, is positive (`StableProof3.v`). Positive definiteness gives existence and uniqueness of the solution and the convergence of the solvers (C24) (`StableProof4.v`). The statement about the one-point rule is a computation of the gradient at the centre.

* `C106_rules` (PropStable.v; RC): C106, the rules: the rules of the library for triangles, quadrilaterals and tetrahedra whose points are enough, with positive weights.
* `C106_runs` (PropStable.v; R): C106, the elements: the routines return a matrix for every element of such a mesh.
* `C106_definite` (PropStable.v; R): C106, the system: if every node with a free dof is held, then the assembled matrix is symmetric and positive definite; the assembled system has exactly one solution, and Disassembling makes of it the field with the prescribed values that is in equilibrium at all free dofs.
* `C106_solve` (PropStable.v; R+): C106, the solvers: when the prescribed values with zeros elsewhere are not already an equilibrium, CG and ScalingCG with at least as many iterations as there are equations report convergence, and Disassembling gives a field with the prescribed values whose forces are at every free dof within the tolerance of the loads.
* `C106_patch` (PropStable.v; R): C106, the patch test again: if the prescribed values are those of an affine field and the nodes with free dofs are inside the mesh, then whatever solves the assembled system gives the affine field.
* `C106_hourglass` (PropStable.v; R): C106, why one point is not enough: with a rule whose points are all at the centre (Gauss1Square) every quadrilateral gives no force for nodal values of alternating sign, so values that are not a rigid motion have no energy.

### C107 The time loops of the transient samples: one step, stability, conservation (proved)

On every mesh of 3-node triangles or 4-node quadrilaterals with positive Jacobians and weights, for positive material constants, dt > 0 and theta > 0, the system that one pass of the time loops of sample_heattransfer_dynamic and sample_reactiondiffusion assembles is symmetric and positive definite, even when no dof is fixed; it has exactly one solution, and Disassembling makes of it the only field that keeps the values of the fixed dofs and satisfies, at every free dof, (stored heat after - before)/dt = source - theta*(conducted after) - (1-theta)*(conducted before). CG and ScalingCG with at least as many iterations as equations report convergence and satisfy this balance within the tolerance. A field stays the same exactly if it is in static equilibrium. If theta >= 1/2 and the source does not depend on the field, the distance of two runs with the same fixed values does not grow in the capacity norm for any dt and any number of steps; for every theta < 1/2 there are a mesh, a dt and two runs whose distance grows. If no dof is fixed, every step adds exactly dt times the total source to the heat content. Quantifier: all meshes, numberings, fields, dt, theta, sources and numbers of steps.

*Model and method.* `ThetaProof.v` shows that what the loop adds for an element is the assembly of C/dt + theta K with the vector (C/dt - (1-theta) K)T + F. `ThetaProof2.v`: both energies are nonnegative, no field on the element has neither (zero conduction energy means constant, and the capacity of a constant is the integral of 1), and the columns of the conduction sum to zero. `ThetaProof3.v` and `ThetaProof4.v` assemble, prove positive definiteness and turn the residual of the system into the defect of the balance. `ThetaProof5.v`: testing the difference of two balances with theta D1 + (1-theta) D0 gives the decrease of the capacity norm, testing with 1 gives the conservation.

* `C107_elements` (PropTheta.v; R): C107, the elements: the routines and the source give matrices and vectors for every element of the mesh.
* `C107_step` (PropTheta.v; R): C107, one step: the assembled matrix of every time step is symmetric and positive definite, even when no dof is fixed; the system has exactly one solution; Disassembling makes of it the only field that keeps the values of the fixed dofs and satisfies the balance of the theta scheme at every free dof.
* `C107_solvers` (PropTheta.v; R+): C107, the solvers: if the right side is not zero, CG and ScalingCG with at least as many iterations as there are equations report convergence, and the field they give keeps the values of the fixed dofs and satisfies the balance at every free dof within the tolerance.
* `C107_runs` (PropTheta.v; R): C107, the runs: there are solvers that return solutions with which the loop runs to the end from all given fields.
* `C107_steady` (PropTheta.v; R): C107, stationary fields: a step returns the same field exactly when the field is in the static equilibrium of the conduction with the source.
* `C107_contract` (PropTheta.v; R): C107, stability: for theta at least 1/2 and a source that does not depend on the field, the distance of two runs that agree at the fixed dofs does not grow in the norm of the capacity, for every time step size and every number of steps.
* `C107_heat` (PropTheta.v; R): C107, conservation: when no dof of the mesh is fixed and the source does not depend on the field, every step adds dt times the total source to the heat content; without a source it stays the same.
* `C107_half` (PropTheta.v; RC): C107, 1/2 is needed: for every theta below 1/2 there are a time step size, and two runs on one triangle that agree at the fixed dofs, whose distance grows.

### C108 The analysis in the topology optimisation samples: equilibrium, balance, exact sensitivities (proved)

For every plane-strain problem of the density samples (admissible elements of the stable pairs, loads on nodes, zero prescribed values that hold every free node, 0 < E0 <= E1, -1 < nu < 1/2, t > 0), every list of positive densities and every solver that solves symmetric positive definite systems, one pass of the analysis of sample_optimize_density_{oc,mma,CONLIN} succeeds. The displacements are zero at the fixed dofs; the forces r are those of elements with modulus E0 + (E1-E0)*rho^p and equal the loads at every dof that is not fixed; r has no resultant and no moment, so the reactions balance the loads. The objective is scale0 times the work of the loads, and not negative. The returned sensitivities dfdrho are the exact derivatives of the objective: along every differentiable path of designs, and entry i is the partial derivative in rho[i]. More material never raises the objective and no sensitivity is positive. The weight is scale1*(mean density/limit - 1) with its exact derivatives. CG stopped at a zero residual is such a solver. Quantifier: all meshes of admissible elements, supports, loads, constants, densities, paths of designs and solvers of SPD systems.

*Model and method.* The body of the loop is modelled in `TopModel.v` on top of the models of the controllers and of PlaneStrainStiffness. The assembled system is positive definite by C106; the system is turned into the weak form (`TopProof5.design_solves`), where the derivative of the compliance follows from two one-sided energy bounds and a squeeze (`TopProof.work_derivative`), without differentiating the inverse matrix. The balance uses that rigid motions do no work (C36).

* `C108_analysis` (PropTop.v; RC): C108, the analysis: for every admissible problem and design the analysis succeeds. The field is zero at the fixed dofs; the forces it returns are those of the elements with the modulus E0 + (E1 - E0) rho^p, and at the other dofs they are the loads; the objective is the scaled work of the loads and not negative.
* `C108_balance` (PropTop.v; RC): C108, balance: the forces that the analysis returns have no resultant and no moment, so the reactions at the fixed dofs balance the loads.
* `C108_sensitivity` (PropTop.v; RC): C108, the sensitivities: along every differentiable path of designs the objective is differentiable and its derivative is the sum of the returned sensitivities times the rates of the densities.
* `C108_gradient` (PropTop.v; RC): C108, the gradient: entry i of the sensitivities is the partial derivative of the objective with respect to the density of element i.
* `C108_monotone` (PropTop.v; RC): C108, more material: with a penalty exponent and a scale that are not negative, a design that is nowhere thinner does not raise the objective, and no sensitivity is positive.
* `C108_solver` (PropTop.v; R): C108, the solver: conjugate gradients, run until the residual is zero, solves every system with a symmetric positive definite matrix.
* `C108_weight` (PropTop.v; R): C108, the weight: the value is scale * (mean density / limit - 1) and the sensitivities are its partial derivatives, so the weight is at most zero exactly when the mean density is at most the limit.

### C109 The optimisation loop of the density sample runs through, keeps the design in (0,1], and when its bisection ends (proved)

For every rectangle, every number of elements in both directions, every support predicate that includes the left side, every load predicate, every filter radius > 0, positive moduli E0 <= E1, p >= 0, scale factors and limit > 0 and every first density in (0,1], the set-up of sample_optimize_density_oc.cpp succeeds: the mesh is an admissible problem, the centres are the centres of the cells, the neighbours of an element are exactly the elements whose centres are at most the radius away, each once, with weight 1 - distance/radius (symmetric, 1 for the element itself). From every design in (0,1] the body of the loop runs through: the densities are in (0,1], the sensitivities of the objective are never positive, those of the weight positive, and the constraint given to the optimiser equals the weight. After every number of passes the design is in (0,1], each pass changing each variable by at most the move limit, or the bisection of OC::UpdateVariables did not end; there is no other failure. With the lower limit 0 of the sample the bisection ends if and only if the constraint is violated by the design that goes up as far as the move limit allows wherever the sensitivity of the objective is negative and down elsewhere; with an allowed mean density of 1 or more it never ends (in exact arithmetic). Quantifier: all sizes, meshes, predicates, radii, constants, designs in (0,1], solvers that solve symmetric positive definite systems, numbers of passes.

*Model and method.* The set-up and the loop are modelled in `LoopModel.v` on top of TopModel, OCModel, FilterModel and MeshModel, with the optimiser's bisection under fuel. The mesh is shown to be held column by column from the left side (`LoopProof5`), so C106/C108 apply; the bisection is analysed in `LoopProof3`: the candidate is monotone in the multiplier, and halving the upper limit reaches every positive multiplier, so the lower limit moves off 0 exactly when some candidate violates the constraint. Example: three cells in a row, with the lists of neighbours computed.

* `C109_problem` (PropLoop.v; RC): C109, the problem: for every size of the rectangle and every number of elements, if the supports include the left side, the set-up of the sample is an admissible problem; the prescribed dofs are those at the nodes where the predicate holds, the loads act on dof 1 where theirs holds, and the centres of the elements are the centres of the cells.
* `C109_neighbors` (PropLoop.v; R+): C109, neighbours: element j is a neighbour of element i exactly when the distance of the centres is at most the radius, once, with the weight 1 - distance / radius; the lists satisfy what the filters need and the weights are symmetric.
* `C109_pass` (PropLoop.v; RC): C109, a pass: for every design in (0, 1] the body of the loop runs through; the densities lie in (0, 1], the analysis and the weight are those of the densities, the constraint that the optimiser evaluates is the weight, no sensitivity of the objective is positive and every sensitivity of the weight is.
* `C109_run` (PropLoop.v; RC): C109, the run: from every admissible state, for every number of passes, the loop ends in an admissible state, or the bisection of the optimiser does not end; there is no other failure. One pass changes every variable by at most the move limit.
* `C109_sample` (PropLoop.v; RC): C109, the sample: for every size, every number of elements, every radius and every first density in (0, 1], the set-up succeeds and the loop delivers a design in (0, 1] after every number of passes, unless the bisection of the optimiser does not end.
* `C109_update_ends` (PropLoop.v; RC): C109, the bisection: with the lower limit 0 that the samples use, the update of the optimiser ends if and only if the design that goes up as far as the move limit allows wherever that helps the objective violates the constraint; a constraint that holds there keeps the bisection running for ever.
* `C109_inactive` (PropLoop.v; RC): C109, an inactive constraint: if the allowed mean density is 1 or more, the bisection never ends.

### C110 How far the sensitivities of the density sample are from the gradient (proved)

In the loop of sample_optimize_density_oc.cpp the objective and the constraint are differentiable functions of the design. The sensitivity that the loop hands to the optimiser for element i, times the weight sum of element i, lies between a times and b times the partial derivative whenever the weight sums of the neighbours of i lie between a and b; so it has the sign of the partial derivative, and it is the partial derivative when all these weight sums are equal. If the weight sum of an element is the smallest among its neighbours and one of them has a larger one, as at the border of the mesh, the sensitivity of the constraint is larger than its partial derivative, so the vector is not the gradient. Quantifier: all problems, filters with symmetric weights, betas > 0, designs in (0,1].

*Model and method.* The gradient of the composition is that of C45 with the sensitivities of C108 (`LoopProof6`); with symmetric weights the returned sum and the gradient have the same terms up to the factors W_k, which gives the bounds, and strictness at the border. Example: the first of three cells in a row, weight sums 4/3, 5/3, 4/3.

* `C110_gradient` (PropLoop.v; RC): C110, the sensitivities that the loop uses: the objective and the constraint are differentiable in the design; if the weights sums of the neighbours of element i lie between a and b, the sensitivity of element i, times its own weight sum, lies between a times and b times the partial derivative, so it has the right sign, and it is the partial derivative if all these sums are equal.
* `C110_not_gradient` (PropLoop.v; RC): C110, at the border: if the weight sum of an element is the smallest among its neighbours and one of them has a larger one, the sensitivity of the constraint that the loop uses exceeds the partial derivative; what the loop uses is not the gradient.

### C111 Conjugate gradients on singular systems (proved)

A system with a symmetric matrix has a solution exactly when its right-hand side is orthogonal to every null vector of the matrix. For a symmetric positive semidefinite matrix, which may be singular, and such a right-hand side, CG in exact arithmetic divides by zero nowhere and reaches a zero residual after at most n steps; CG, and ScalingCG when the diagonal is positive, report convergence within n iterations for any tolerance, with a result as accurate as the tolerance asks. If the right-hand side has a component along a null vector, then for every tolerance small enough no solver of the CG family reports convergence, whatever the number of iterations. Quantifier: all n, symmetric (positive semidefinite) CSR matrices, right-hand sides, tolerances and iteration limits.

*Model and method.* The residuals and directions of conjugate gradients lie in the range of the matrix (CGMath.v, section Semidefinite), where a positive semidefinite form is definite, so the finite termination argument of C24 applies with positivity only on the directions. The alternative is proved by elimination over R (SemiMath.v). The negative part multiplies the residual by the null vector.

* `C111_alternative` (PropSemi.v; R): a system with a symmetric matrix has a solution exactly when its right-hand side is orthogonal to the null vectors of the matrix
* `C111_trace` (PropSemi.v; R): plain conjugate gradients, in exact arithmetic, with a symmetric positive semidefinite matrix and a right-hand side orthogonal to its null vectors: after m <= n steps without any division by zero the residual is zero
* `C111_converges` (PropSemi.v; R+): so CG, and ScalingCG when the diagonal is positive, report convergence within n iterations, for any tolerance
* `C111_inconsistent` (PropSemi.v; R+): without that orthogonality no solver of the CG family reports convergence for a small tolerance: with A z = 0 and eps |b| |z| <= |z.b|, none of them returns through its convergence test

### C112 The homogenization sample: least energy, symmetry, bounds, independence of the solver (proved)

For every cell (admissible elements with positive Jacobians and weights, every slave node with one master that is not itself a slave, E >= 0, -1 < nu < 1/2, thickness >= 0, springs >= 0, volume > 0) sample_homogenization builds a symmetric positive semidefinite system whose quadratic form is the energy of the numbered field, and the system has a solution for each of the three right-hand sides. With any solver of consistent semidefinite systems the run succeeds; the characteristic displacements take the same values at both nodes of every pair; the homogenized matrix is symmetric; volume times its quadratic form at a macroscopic strain v is the energy of the cell under v relaxed by the combination of the characteristic displacements, which no periodic field undercuts. So the matrix is positive semidefinite, at most the mean of the material (Voigt), the same for any two solvers although the solutions differ, and grows with the stiffness of the artificial springs by at most a constant times that stiffness. The matrix of the system is singular whatever the stiffness of the springs, because WeakSpring couples both displacements of a node: the translation (1,-1) is a null vector. With springs and every node in an element, ScalingCG still converges within n iterations for every right-hand side that is not zero. Quantifier: for all meshes, pairings, shape functions and rules, materials, thicknesses, springs, volumes, macroscopic strains, periodic fields and solvers.

*Model and method.* The sample is modelled in `CellModel.v` on top of the models of SetPeriodic, Assembling, Disassembling, PlaneStrainStiffness, WeakSpring and the functions of Homogenization.h. The matrices of the elements are turned into bilinear forms (`CellProof`), the assembled system into the weak form over periodic fields (`CellProof3`, every periodic field is the field of a vector), and the entries of the homogenized matrix into D(a,c) - B(chi_a,chi_c) (`CellProof4`); the rest is the algebra of that form. Solvability: a field without energy does no work against the unit strains (`CellProof2.Lf_kernel`), then C111. Example: one square element, periodic from left to right, where the stiffness across is at most that of the springs.

* `C112_system` (PropCell.v; R): C112, the system: the run numbers the two equations of every node, giving paired nodes the same numbers, and builds a symmetric positive semidefinite matrix whose quadratic form is the energy of the numbered field and three right-hand sides for each of which the system has a solution
* `C112_run` (PropCell.v; R): C112, the result: with a solver of consistent semidefinite systems the run succeeds, the characteristic displacements are periodic, the homogenized matrix is symmetric, its quadratic form times the volume is the energy of the cell under the macroscopic strain relaxed by the characteristic displacements, and that is the least energy any periodic field reaches. The other matrix is the identity less the integrals of the strains, over the volume.
* `C112_bounds` (PropCell.v; R): C112, bounds: the homogenized matrix is positive semidefinite and at most the mean of the material over the volume (the bound of Voigt)
* `C112_unique` (PropCell.v; R): C112, the solver does not matter: although the system is singular and its solutions differ, any two solvers give the same homogenized matrix
* `C112_springs` (PropCell.v; R): C112, the springs: stiffer springs give a stiffer homogenized matrix, and the difference is at most the work of the added springs on the old characteristic displacements; taking a = 0, the artificial springs change the result by at most a constant times their stiffness
* `C112_singular` (PropCell.v; R): C112, the matrix is singular for every cell that has a node: the springs of a node act on the sum of its two displacements, so the translation by (1, -1) has no energy whatever their stiffness
* `C112_scaling_cg` (PropCell.v; R+): C112, ScalingCG: with springs and every node in an element the diagonal is positive, so that the solver the sample calls converges within n iterations, for each right-hand side that is not zero
* `C112_solver` (PropCell.v; R): C112, a solver: conjugate gradients, run until the residual is zero, solve every consistent system with a symmetric positive semidefinite matrix

### C113 Size optimisation of trusses is exact, safe, and its fixed points are global optima (proved)

For every plane truss of bars of positive length and every design with entries in [0, 1], the analysis of the size-optimisation sample succeeds, returns the unique field that vanishes at the supports and balances the loads, the resistance of the bars, the scaled work of the loads and sensitivities that are its exact derivatives along every path of designs; the matrix is symmetric, and positive definite exactly if the truss is no mechanism. The objective lies above its tangents, so every design that satisfies the optimality conditions with the returned sensitivities, in particular every design with the allowed weight that the optimiser leaves unchanged, is a global optimum. The loop fails in no way except by a bisection that does not end, which happens exactly if the largest helpful step does not exceed the allowed weight. The ground structure of the sample is rigid for every size and number of cells as soon as the bars reach the diagonal of a cell and the two left corners are supported. Quantifier: for all trusses, supports, loads, areas, designs, paths of designs, solvers, optimiser parameters, numbers of passes, sizes and numbers of cells.

*Model and method.* The sample is modelled in `TrussModel.v` on top of the models of Truss2D, Assembling, RemoveBoundaryConditions, Disassembling, GrandStructure and OC. The matrix of a bar is turned into the form E A / l times the product of two elongations (`TrussProof`), the assembled system into the sum of these forms, which is definite exactly if vanishing elongations imply a vanishing field, and the returned forces into the resistance of the bars (`TrussProof2`). The tangent inequality follows from the definition of the field and the non-negativity of the energy of a difference (`TrussProof3`); the optimality conditions turn it into global optimality, and a fixed point of the clipped update of OC satisfies them (`TrussProof4`). Rigidity of the ground structure (`TrussProof5`): horizontal and vertical bars make the components constant along rows and columns, the diagonals make the differences opposite constants, the two supports make them zero.

* `C113_system` (PropTruss.v; R+): C113, the system: for every truss and all positive areas the matrix that the samples assemble is symmetric, and it is positive definite if and only if the truss is no mechanism, that is no motion that respects the supports leaves all lengths unchanged.
* `C113_analysis` (PropTruss.v; R+): C113, the analysis: for every sizing problem and every design with entries in [0, 1] the analysis succeeds. The field is zero at the supports, the forces of the bars balance the loads at all other dofs, and no other field does that; the returned forces are the resistance of the bars, the objective is the scaled work of the loads and the sensitivity of bar i is - scale (A1 - A0) E elongation^2 / length.
* `C113_sensitivity` (PropTruss.v; R+): C113, the sensitivities: along every differentiable path of designs with positive areas the objective is differentiable, and its derivative is the sum of the returned sensitivities times the derivatives of the design.
* `C113_convex` (PropTruss.v; R+): C113, convexity: the objective lies above each of its tangents, so the returned sensitivities bound the objective of every other design from below.
* `C113_weight` (PropTruss.v; R+): C113, the weight: the lengths are those of the bars, the constraint is the weight relative to the allowed one minus 1, and its sensitivities are exact for steps of any size.
* `C113_optimal` (PropTruss.v; R+): C113, optimality: a design in [0, 1] with a multiplier that satisfies the conditions of Karush, Kuhn and Tucker, with the sensitivities that the code returns, is a global optimum: no admissible design with at most the allowed weight has a smaller objective.
* `C113_fixed_point` (PropTruss.v; RC): C113, fixed points: if the candidate that the optimiser computes from a design in (0, 1] with exactly the allowed weight, for a positive multiplier, is the design itself, then the design is a global optimum.
* `C113_run` (PropTruss.v; RC): C113, the loop: for every solver, every sizing problem and every start in (0, 1] the optimisation fails in no way except by not ending a bisection; the designs stay in (0, 1] and each pass changes an entry by at most the move limit times the entry.
* `C113_update_ends` (PropTruss.v; RC): C113, the bisection: with the lower limit 0 of the sample the update ends if and only if the largest step that helps the objective weighs more than allowed; so a limit of 1 or more keeps the bisection running for ever.
* `C113_sample` (PropTruss.v; R+): C113, the sample: for every size and every number of cells the ground structure with bars at least up to the diagonal of a cell, supported at least at the two left corners, is a rigid truss.

### C114 The total stress design is fully stressed and minimal for determinate trusses only (proved)

For every rigid truss, all positive areas and all strengths, the total stress design sample succeeds, and the forces of the analysed truss equal the new areas stressed up to the strength of tension or compression, so these balance the loads too; a new area vanishes exactly if the bar carries no force. If the truss is statically determinate and no bar is without force, the analysis with the new areas stresses every bar exactly up to its strength, a second pass changes nothing, and no areas whose stresses stay within the strengths are smaller in any bar. Without determinacy this fails: there is a rigid truss of three bars whose design is overstressed by a fifth. Quantifier: for all trusses, supports, loads, areas, strengths and solvers.

*Model and method.* The in-place update of the areas is unrolled bar by bar (`TrussProof5`). The forces of two analyses of a determinate truss are equal because their difference balances no loads. The counterexample is computed from the equations of balance of its single free node, so it holds for every solver.

* `C114_design` (PropTruss.v; R+): C114, the design: for every truss, all positive areas and all strengths the total stress design succeeds. Its field balances the loads; each new area is the force of the bar over the strength, so the bars with the new areas carry the same forces, and balance the same loads, when they are stressed up to their strengths.
* `C114_determinate` (PropTruss.v; R+): C114, determinate trusses: if the truss is statically determinate and no bar is without force, one pass is enough: the analysis with the new areas stresses every bar exactly up to its strength, a second pass changes nothing, and no areas whose stresses stay within the strengths are smaller.
* `C114_overstress` (PropTruss.v; R+): C114, other trusses: without determinacy one pass is not enough. There is a rigid truss whose total stress design, for every solver, is overstressed by a fifth.

### C115 The level set optimisation sample runs safely and each pass is what its equations say (proved)

In the level set sample, for every admissible mesh with supports and zero fixed values, every solver that solves symmetric positive definite systems and every structure: the displacements are in equilibrium, objective[t] grows by the work of the loads, which is twice the strain energy; the topological derivative of an element is its weight times the energy of the material with the Lame constants A1 and A2 and is never negative. A pass that goes on replaces phi by the least point of the energy of one backward Euler step of the reaction diffusion equation, cut off at -1 and 1, and empties exactly the elements with a negative mean of phi. The test of convergence stops the loop exactly after five small relative changes at the volume Vmax, and reads objective before its beginning exactly if it is reached in a pass t < 5 with t > nvol. The only other fault is the division by the sum of the topological derivative, exactly if no free dof is loaded. With nvol >= 4 and a loaded free dof every number of passes ends without a fault, phi stays between -1 and 1, str is 0 or 1, elements whose nodes are all fixed in phi are never removed, and multiplying the loads by a factor changes nothing but the objectives, by its square. Quantifier: for all meshes of admissible elements, supports, loads, fixed nodes, constants in the stated ranges, solvers, structures, level set functions, numbers of passes and load factors.

*Model and method.* LevelModel is the sample line by line with sizes, predicates and solver as parameters. Equilibrium and energies come from the assembled system as in C108; the diffusion step is shown to be the theta step of C107 with theta = 1, and the minimum follows by completing the square; no free load means no energy in any element because a field held by the supports without energy is zero; the passes are combined by an invariant. Load factors: the displacements are unique, so they scale, and the reaction term is unchanged.

* `C115_constants` (PropLevel.v; R): The constants of the topological derivative are those of a spherical hole, and the plane stress routine, called as in the sample, has the Lame constants A1 and A2.
* `C115_analysis` (PropLevel.v; R): The analysis of any structure: displacements in equilibrium, the objective is twice the strain energy and the work of the loads, the topological derivative of an element is its weight times the energy of the polarised material, nodes receive the means.
* `C115_faults` (PropLevel.v; R+): The faults of a pass: the history is read before its beginning exactly if the volume is tested in one of the first five passes; otherwise the only fault is the division by the sum of the topological derivative, which happens exactly if no free dof is loaded.
* `C115_stop` (PropLevel.v; R+): The loop stops in pass t exactly if the volume is reached after nvol passes and the last five changes of the objective are below one percent; then the structure is left as it is.
* `C115_update` (PropLevel.v; R+): A pass that goes on: the level set function makes one backward step of the reaction diffusion equation, whose result is the least point of the step energy among the functions that vanish at the fixed nodes, and is cut off at -1 and 1; an element is empty exactly if the mean of its nodes is negative.
* `C115_schedule` (PropLevel.v; RC): The volume asked for goes down from the first volume to Vmax and stays there from pass nvol - 1 on; the multiplier is above the mean of the topological derivative exactly if the volume exceeds (1 - d) times the volume asked for.
* `C115_run` (PropLevel.v; R+): The whole optimisation: with at least four passes of reduction and a loaded free dof it ends without a fault after any number of passes; elements between fixed nodes are never removed.
* `C115_scale` (PropLevel.v; R+): Loads multiplied by a number give the same structures and level set functions in every pass, and the objectives multiplied by the square of the number.
* `C115_sample` (PropLevel.v; RC): The problem of the sample on the rectangle of any size, and what follows for it.

### C116 The plane strain sample computes the equilibrium, and what the exported reactions are (proved)

For every mesh of admissible elements, edges, supports that exclude rigid motions, prescribed values, nodal loads, body force, traction, E > 0, -1 < nu < 1/2 and thickness > 0, and every solver of symmetric positive definite systems, sample_planestrain runs without a fault. The displacements take the prescribed values, do in every admissible field the work of the body force, nodal loads and tractions, are the only field that does, and have strictly the least potential energy among all fields with the prescribed values. The exported forces r do the work of the stresses in every field, equal the nodal equivalents of the loads at every dof that is not prescribed, and have no resultant and no moment. On the mesh of the sample r at the supports depends on the loads alone, and the vertical force at node 0 misses the applied load by a third of the body force per element area times thickness (b*t/3), the part acting on the held node; with the constants of the sample r is 1000 against a load of 1100. Quantifier: for all meshes, supports, loads, materials and solvers of SPD systems; for the mesh of the sample all materials, thicknesses and loads.

*Model and method.* PlaneModel is the sample with its data and the solver as parameters. The load vectors come from C82, the assembled system from C31 and C106 with restraint against rigid motions instead of held nodes; summing nodal forces against a field turns balance at the free dofs into virtual work, from which uniqueness and least energy follow by completing the square; rigid fields do no work, which gives resultant and moment and, for the sample, the support forces.

* `C116_run` (PropPlane.v; R+): C116, the run: with supports that exclude rigid motions and a solver of positive definite systems, the program completes without a fault; the displacements carry the prescribed values and are in equilibrium with the loads: in every admissible field their stresses do the work of the body force, the nodal loads and the tractions. No other field does.
* `C116_least` (PropPlane.v; R+): C116, the energy: among all fields with the prescribed values the displacements have the least potential energy (half the work of the stresses minus the work of the loads), and they alone have it.
* `C116_reaction` (PropPlane.v; R+): C116, the reactions: the exported nodal forces do, in every field, the work of the stresses. Where the displacement is free they are the nodal equivalents of the loads. Their sum vanishes in both directions, also their moment.
* `C116_sample` (PropPlane.v; RC): C116, the plate of the sample, for every admissible material, thickness and load: the run completes, and the forces at the supports are determined by the loads alone. The exported vertical force at node 0 is not the force of the support: it falls short of the applied load by b * t / 3, the part of the body force that acts on the held node itself.

### C117 The load stepping sample follows the equilibrium path by Newton steps (proved)

For an element routine that succeeds on all displacements and loads that do not all vanish, the program runs through all load steps without a fault; every exported state carries the prescribed values. Where the inner loop is left by its test and all prescribed values are zero, the scaled loads and the element forces balance in every dof that is not held up to sqrt(tolerance * norm of the scaled loads). With a solver whose answers are solutions, each pass solves the equations linearised at the current displacements: the assembled matrices are minus the derivative of the out-of-balance force along every line of displacements. Three limits hold as well: without loads the test divides by zero; the test compares a squared residual with an unsquared norm, so that the undeformed body is accepted in all steps when the norm of the loads is below the tolerance; and with prescribed values other than zero each pass subtracts the matrices applied to the prescribed displacements once more, so that there are exact equilibrium states that no pass accepts. Quantifier: all meshes, prescribed values, loads, numbers of steps and passes, tolerances and solvers; all element routines that succeed (the total Lagrangian routine on all admissible elements and Lame constants for the tangent).

*Model and method.* Invariant through the two loops (`NewtonProof3`): one pass is computed from the assembly lemmas (`pass_ok`: right-hand side, entries, test), the prescribed values never move because held dofs have no equation. Equilibrium is the test with the held share zero. The tangent follows from the element consistency C39 summed over the elements, small loads from the vanishing element forces at rest, and the prescribed values from a translated tetrahedron whose forces vanish (C39, rigid motions) while the held share is -1/6.

* `C117_run` (PropNewton.v; R+): C117, the run: for an element routine that succeeds on all displacements, a solver that returns vectors of the right size and loads that do not all vanish, the program runs through all load steps without a fault. Every step exports displacements with the prescribed values; where the inner loop was left by the test, the tested sum of squares is below the tolerance times the norm of the scaled loads.
* `C117_equilibrium` (PropNewton.v; R+): C117, equilibrium: when all prescribed values are zero, at the displacements of a converged step the scaled loads and the forces of the elements balance in every dof that is not held, up to the square root of the tolerance times the norm of the scaled loads.
* `C117_idle` (PropNewton.v; R+): C117, no loads: if all loads vanish, the program divides zero by zero (or a positive number by zero) in the first test.
* `C117_total` (PropNewton.v; R): C117, the sample: the total Lagrangian routine on elements without vanishing Jacobian at its points is admissible, for all Lame constants.
* `C117_step` (PropNewton.v; R+): C117, the Newton step: with a solver whose answers are solutions, a pass that does not accept moves the displacements so that the assembled tangent matrices, applied to the movement, give the out-of-balance force less the share of the prescribed displacements, in every dof that is not held.
* `C117_tangent` (PropNewton.v; R): C117, the tangent: along every straight line of displacements the derivative of the out-of-balance force of the sample is minus the assembled tangent matrices applied to the direction. With zero prescribed values a step of [C117_step] therefore solves the linearised equilibrium equations.
* `C117_small` (PropNewton.v; R+): C117, small loads: the test compares the squared residual with the norm of the loads, not with its square. If the norm of the loads is below the tolerance, the sample accepts the undeformed body in every load step, although the loads are not balanced there at all.
* `C117_prescribed` (PropNewton.v; RC): C117, prescribed values: a state that carries the prescribed values and is in exact equilibrium is accepted exactly if the tangent matrices, applied to the prescribed displacements, are small: every pass moves the prescribed displacements to the right-hand side again, although the element forces already contain them. So there are equilibrium states that are not accepted.

### C118 The static heat and solid samples return the only field in balance (proved)

The programs sample_heattransfer_static.cpp and sample_linear.cpp, run with an admissible conduction or elasticity routine, with elements that have no mechanism, with every node held by the prescribed values and with a solver that is right on symmetric positive definite matrices, run without a fault: the exported field has the prescribed values (the last one given for a dof, over all lists), the forces of the elements balance the nodal loads in every other dof, and it is the only field that does both. Eight node bricks with parallel edges under Gauss8Cubic, as in the mesh of the solid sample, have no mechanism, nor have triangles, tetrahedra and quadrilaterals with three points. Between two walls at given temperatures and with level or shared sides elsewhere the heat sample returns the linear profile at every node. Of all fields with the prescribed values that of the program has the least potential energy. Scaled data give the scaled field, and two load cases with zero prescribed values do the same work on each other's fields. Quantifier: all meshes, prescribed values, loads, admissible constants, and solvers right on symmetric positive definite systems.

*Model and method.* C118_run: the loop of element calls is rewritten as the assembly of elements with those matrices; the assembled matrix is symmetric and positive definite because a field without energy is rigid on each element and vanishes along the chain that holds the nodes; the solver's vector gives the balance row by row, and any other balanced field would solve the same system. C118_brick: in the coordinates of the parent cube the strains are polynomials of degree one in each coordinate, so they vanish identically when they vanish at the eight points, and the remaining modes cancel. C118_stable: the argument of C106. C118_profile: the linear field is in balance, because the flux through a side shared by two elements cancels and a level side has none; it is then the result by uniqueness. C118_scale: the scaled field is in balance for the scaled data. Reciprocity (`static_reciprocal`) writes the work of the loads as that of the element matrices, which are symmetric; least energy (`static_least`) adds that they are positive semidefinite. The solver is a parameter that returns the exact solution of symmetric positive definite systems (conjugate gradients until the residual is zero is one, C108_solver); the stopping tolerance 1e-10 of the samples is not modelled here. A node counts as prescribed when all its components are. The solid sample's Element.csv and Node.csv describe unit cubes (read off as text, not part of the proof); general eight node elements with curved edges are outside C118_brick.

* `C118_run` (PropStatic.v; R): C118, the run: with a mesh whose elements have no mechanisms and whose nodes are all held by the prescribed values, and a solver that is right on symmetric positive definite matrices, the program runs without a fault. The exported field has the prescribed values, the forces of the elements balance the loads in every other dof, and no other field of this shape does so.
* `C118_brick` (PropStatic.v; R+): C118, bricks: an eight node element with parallel edges that is not turned inside out, with the rule of the sample (2 x 2 x 2 points), has no mechanism: displacements without strain at the eight points are rigid motions, and a scalar field without gradient there is constant.
* `C118_stable` (PropStatic.v; R): C118, simplices and quadrilaterals: triangles and tetrahedra with any rule, and quadrilaterals with three points that are not on a line, have no mechanism.
* `C118_profile` (PropStatic.v; R+): C118, the heat sample: between two walls held at [hot] (x = x0) and [cold] (x = x1), where every side of the mesh at a free node is shared by two elements or is level, the exported temperature is the linear profile at every node, for every mesh, conductivity and thickness.
* `C118_scale` (PropStatic.v; R): C118, linearity: all prescribed values and loads multiplied by [c] give the field multiplied by [c].
* `C118_reciprocal` (PropStatic.v; R): C118, reciprocity: of two load cases with zero prescribed values, the loads of each do the same work on the field of the other.
* `C118_least` (PropStatic.v; R): C118, least energy: of all fields with the prescribed values that of the program has the least potential energy.

### C119 The beam sample returns the field of least energy; its cantilever bends as a Timoshenko beam (proved)

The program sample_beam_linear.cpp, run with straight two node beams in any position whose nodes are all connected with a node that has its six components prescribed, and with a solver that is right on symmetric positive definite matrices, runs without a fault: displacements and rotations have the prescribed values, the work of the bars (Timoshenko beams with rectangular section) for every virtual field is that of the loads, no other field does so, no field with the prescribed values has less potential energy, two load cases on a frame with zero prescribed values do the same work on each other's displacements, and the exported displacements are the first three components. For the cantilever of the sample with n elements of length l and the load P at the end, the node at x has the deflection P x / (5/6 G A) + P (L x^2 / 2 - x^3 / 6 - l^2 x / 12) / (E I) and turns by - P (L x - x^2 / 2) / (E I), all other components being zero; at the end the part due to bending is 1 - 1 / (4 n^2) of that of the beam, whatever the section. Quantifier: all frames of straight bars, prescribed values, loads, constants E > 0 and V > -1, sections, numbers of elements, and solvers right on symmetric positive definite systems.

*Model and method.* `FrameModel.v` models the program with the run of the static samples (`StaticModel.v`), the beam routine (`BeamModel.v`) and `Segment`; the mesh files are `fr_sample`. `gen_definite`/`gen_run` derive the run from symmetric element matrices of non-negative energy whose common kernel is held; for bars this follows from C97_straight_beam (the matrix is the Timoshenko form) since the six strain measures vanish only for rigid motions (`timoshenko_zero`), passed on along connected nodes. `balanced_work` turns balance of forces into virtual work with `timoshenko`, which does not mention the program. The cantilever field is checked by a telescoping sum (`cant_sum`) and is the result by uniqueness. Reciprocity (`frame_reciprocal`) takes each field as the virtual field of the other; `timoshenko` is symmetric. the solver is a parameter that is right on symmetric positive definite systems; exact reals; import and export of files not modelled

* `C119_run` (PropFrame.v; R+): C119, the run: for a frame of straight bars in any position, each node connected with one whose six components are prescribed, and a solver that is right on symmetric positive definite matrices, the program runs without a fault. Displacements and rotations have the prescribed values; the work of the bars (Timoshenko beams) for every virtual field is that of the loads; no other field of this shape does so; the exported displacements are the first three components.
* `C119_least` (PropFrame.v; R+): C119, least energy: the field of the program has the least potential energy of all fields with the prescribed values.
* `C119_cantilever` (PropFrame.v; R+): C119, the sample: with n bars of length l and the load P at the end, node i at x = i l has the deflection P x / (5/6 G A) + P (L x^2 / 2 - x^3 / 6 - l^2 x / 12) / (E I) and turns by - P (L x - x^2 / 2) / (E I); all other components are zero.
* `C119_tip` (PropFrame.v; R+): C119, the end: against the deflection of the Timoshenko beam only the part due to bending is too small, by the factor 1 - 1 / (4 n^2), whatever the section: the elements do not lock.
* `C119_reciprocal` (PropFrame.v; R+): C119, reciprocity: of two load cases on a frame whose prescribed values are zero, the loads of each do the same work on the displacements and rotations of the other.

### C120 The static advection-diffusion sample satisfies its stabilised weak form and keeps fields across the flow (proved)

The program sample_advectiondiffusion_static.cpp, run on counterclockwise triangles with a nonzero velocity in any direction and positive diffusion, where every side is shared by two triangles, or has prescribed values, or is one through which the flow does not enter, where every node is connected with a prescribed one, and with a solver that is right on positive definite matrices, runs without a fault: the temperature has the prescribed values, the weak form of advection, diffusion and streamline diffusion vanishes for every test field that is zero at the prescribed nodes, and no other field does so. If the prescribed values are those of a linear field that does not change along the flow, and the remaining boundary is parallel to its gradient, the program returns this field at every node; equal prescribed values give this value everywhere, and the temperature is linear in the prescribed values. Turning mesh and flow together, or scaling lengths by l, speed by m and diffusion by l m, changes no temperature. With the speed zero the program divides by zero at the first triangle. Quantifier: all meshes, prescribed values, speeds, directions, diffusion coefficients, and solvers right on positive definite systems.

*Model and method.* Modelled in DriftModel.v (the four element calls, the sum of three of them, then the program of the static samples with one component). Proved in DriftProof*.v: the matrix of a triangle is the form of DriftSpec.v, from the theorems on the element routines (C59, C85); its energy is diffusion plus streamline diffusion plus the flow of the squared values through the sides; shared sides cancel, prescribed ones vanish, and those of outflow are not negative, so that the matrix is positive definite although not symmetric. The cross wind theorem follows from uniqueness by summing the diffusion over the sides; linearity, turning and similarity follow from uniqueness and the behaviour of the form. The solver is a parameter required to be right on positive definite matrices; that BiCGSTAB terminates without breakdown is not claimed here. the solver is a parameter that is right on positive definite systems; that BiCGSTAB does not break down is not claimed; exact reals; import and export of files not modelled; the files of the sample (800 counterclockwise triangles, 40 prescribed sides, 40 sides of outflow) meet the hypotheses, as a script reading them as text found, which is not part of the proof

* `C120_run` (PropDrift.v; RC): C120, the run: for counterclockwise triangles, a nonzero velocity in any direction and positive diffusion, every side being shared, prescribed, or one through which the flow does not enter, and every node connected with a prescribed one, and a solver that is right on positive definite matrices (BiCGSTAB is used as the matrix is not symmetric), the program runs without a fault. The temperature has the prescribed values and satisfies the weak form of advection, diffusion and streamline diffusion for every test field; no other field of this shape does so.
* `C120_crosswind` (PropDrift.v; RC): C120, cross wind: if the prescribed values are those of a linear field that does not change along the flow, and every side is shared, prescribed, or one through which its gradient has no flow, the program returns this field at every node, however small the diffusion is against the velocity.
* `C120_constant` (PropDrift.v; RC): C120, constants: if all prescribed values are equal, every node has this value.
* `C120_superpose` (PropDrift.v; RC): C120, superposition: the temperature is linear in the prescribed values.
* `C120_turned` (PropDrift.v; RC): C120, turning: the mesh and the flow turned by the same angle give the same temperatures.
* `C120_similar` (PropDrift.v; RC): C120, similarity: lengths times l, speed times m and diffusion times l m (the same Peclet number) give the same temperatures, stabilisation included.
* `C120_still_air` (PropDrift.v; RC): C120, no velocity: with the speed zero, where the problem is that of the static heat sample, the program divides by zero at the first triangle.

## Mutation testing

`seeded/LOG.jsonl` has one line per attempt: a definition of a model file was edited in a scratch copy, the
development rebuilt, and the theorems that no longer compile recorded, with the theorems tightened after a mutant
survived.
