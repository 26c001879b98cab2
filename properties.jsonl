{"id": "C01", "title": "LILCSR behaves as a finite map with default 0", "statement": "After any sequence of set(i,j,v) calls on a LILCSR(rows,cols), get(i,j) returns the value most recently set at (i,j), or T() if none was; set returns true exactly when (i,j) had been set before; every row keeps at most one entry per column.", "quantifier": "all sizes, all histories of in-range set calls, all positions, any value type", "why_tests_cant": "A test fixes one history; the claim is an invariant of every history and every row layout.", "anchors": ["src/LinearAlgebra/Models/LILCSR.h: LILCSR::set, LILCSR::get"]}
{"id": "C02", "title": "CSR behaves as a finite map and keeps its storage well formed", "statement": "After any sequence of in-range set calls on CSR(rows,cols), get returns the latest value or T(); indptr is monotone with rows+1 entries ending at the number of stored entries, column indices of each row are strictly increasing, and no access leaves the arrays. Out-of-range rows are undefined behaviour.", "quantifier": "all sizes, all histories of set calls, all positions, any value type", "why_tests_cant": "Insertion shifts every later row pointer; only an invariant over all histories shows the offsets never drift.", "anchors": ["src/LinearAlgebra/Models/CSR.h: CSR::set, CSR::get, CSR(int,int)"]}
{"id": "C03", "title": "LILCSR to CSR conversion preserves the matrix", "statement": "CSR(A) built from any LILCSR A whose rows have distinct columns is a well formed CSR with get(i,j) equal to A.get(i,j) for every position, and although the constructor reorders A's storage, A.get is unchanged for every position.", "quantifier": "all LILCSR values with distinct columns per row, all positions", "why_tests_cant": "The conversion sorts rows in place; a test sees one permutation of one row.", "anchors": ["src/LinearAlgebra/Models/CSR.h: CSR(LILCSR&)", "src/LinearAlgebra/Models/LILCSR.h: LILCSR"]}
{"id": "C04", "title": "CSR to LILCSR and back is the identity", "statement": "Converting any well formed CSR to LILCSR and back gives exactly the same indptr, indices and data.", "quantifier": "all well formed CSR values", "why_tests_cant": "Round trip over all sparsity patterns.", "anchors": ["src/LinearAlgebra/Models/LILCSR.h: LILCSR(CSR)", "src/LinearAlgebra/Models/CSR.h: CSR(LILCSR&)"]}
{"id": "C05", "title": "Both sparse formats are observationally equivalent", "statement": "Running the same sequence of set calls on a LILCSR and on a CSR of the same size gives the same return values and the same get results everywhere.", "quantifier": "all histories of set calls", "why_tests_cant": "Equivalence of two implementations over all histories.", "anchors": ["src/LinearAlgebra/Models/LILCSR.h: set, get", "src/LinearAlgebra/Models/CSR.h: set, get"]}
{"id": "C06", "title": "Sparse matrix times vector is the mathematical product", "statement": "For a well formed CSR (or LILCSR with distinct columns per row) with all column indices in range and a vector of length cols, (A*x)[i] equals the sum over all columns j of A.get(i,j)*x[j].", "quantifier": "all matrices, sizes and vectors (exact arithmetic)", "why_tests_cant": "All patterns and sizes, including empty rows.", "anchors": ["src/LinearAlgebra/Models/CSR.h: operator*(std::vector)", "src/LinearAlgebra/Models/LILCSR.h: operator*(std::vector)"]}
{"id": "C07", "title": "The OpenMP sparse product does not depend on the schedule", "statement": "Under every assignment of rows to threads and every interleaving of the threads' individual loads, multiply-adds and stores, the parallel CSR product terminates with the same vector as the sequential loop, and no two threads access the same output element.", "quantifier": "all schedules, thread counts, interleavings and matrices", "why_tests_cant": "Interleavings cannot be enumerated by running the program.", "anchors": ["src/LinearAlgebra/Models/CSR.h: operator*(std::vector), #pragma omp parallel for"]}
{"id": "C08", "title": "Sparse sums, differences and scalar products are entrywise", "statement": "For matrices of equal size with possibly different sparsity patterns, (A+B).get = A.get+B.get, (A-B).get = A.get-B.get, (c*A).get = c*A.get and (A/c).get = A.get/c at every position, in both formats.", "quantifier": "all pairs of well formed matrices, all positions", "why_tests_cant": "Patterns may overlap arbitrarily; a test covers few overlaps.", "anchors": ["src/LinearAlgebra/Models/CSR.h: operator+, operator-, operator*, operator/", "src/LinearAlgebra/Models/LILCSR.h: operator+, operator-, operator*, operator/"]}
{"id": "C09", "title": "Renumbering numbers exactly the free degrees of freedom", "statement": "Renumbering keeps every -1 entry, gives the remaining entries the numbers 0,1,...,n-1 in node order without gaps or repetition, and returns n, the number of free entries; applying it twice changes nothing.", "quantifier": "all nested node-to-dof tables", "why_tests_cant": "Bijectivity over all tables with any placement of constraints.", "anchors": ["src/FEM/Controller/Assembling.h: Renumbering"]}
{"id": "C10", "title": "Dirichlet conditions are imposed and never unknowns", "statement": "After SetDirichlet with any in-range list, each listed dof is -1 and holds the last value listed for it, all other dofs are untouched; after Renumbering and Disassembling of any solution vector the listed dofs still hold those values.", "quantifier": "all displacement tables, all condition lists with repetitions and any order, all solutions", "why_tests_cant": "Depends on interactions of three functions over all lists.", "anchors": ["src/FEM/Controller/BoundaryCondition.h: SetDirichlet", "src/FEM/Controller/Assembling.h: Renumbering, Disassembling"]}
{"id": "C11", "title": "Periodic constraints share the master's unknowns", "statement": "If masters are not slaves and are not constrained, after SetPeriodic each slave's dofs carry exactly its master's equation numbers, all other free dofs are numbered 0..n-1 bijectively, and n is returned.", "quantifier": "all tables and pair lists satisfying the precondition", "why_tests_cant": "All pair lists; a counterexample exists as soon as a master is also a slave.", "anchors": ["src/FEM/Controller/BoundaryCondition.h: SetPeriodic"]}
{"id": "C12", "title": "Assembly adds up element contributions independently of element order", "statement": "After assembling any list of elements into a matrix, entry (I,J) is the initial entry plus the sum of all Ke(i,j) whose local dofs map to I and J; so any permutation of the element list gives the same matrix and right-hand side.", "quantifier": "all element lists, connectivities, local-to-global maps and element matrices", "why_tests_cant": "All meshes and orders.", "anchors": ["src/FEM/Controller/Assembling.h: Assembling"]}
{"id": "C13", "title": "The reduced system is the equilibrium of the free degrees of freedom", "statement": "If x solves the assembled reduced system K x = F built from elements, Dirichlet values and Neumann loads, then after Disassembling x, the sum of Ke*ue at each free dof equals the external load applied there. Conversely every field with the prescribed values that satisfies these equations is obtained from a solution of the reduced system.", "quantifier": "all meshes, element matrices and vectors, Dirichlet data and loads", "why_tests_cant": "A statement about the composition of five functions for every mesh and constraint set.", "anchors": ["src/FEM/Controller/Assembling.h: Assembling, Disassembling, Renumbering", "src/FEM/Controller/BoundaryCondition.h: SetDirichlet", "src/FEM/Equation/General.h: ElementVector"]}
{"id": "C14", "title": "Assembly preserves symmetry and positive semi-definiteness", "statement": "If every element matrix is symmetric (resp. positive semi-definite) then so is the assembled matrix, for any constraints, including shared periodic unknowns.", "quantifier": "all element lists and numberings", "why_tests_cant": "All meshes; eigenvalue checks sample one mesh.", "anchors": ["src/FEM/Controller/Assembling.h: Assembling"]}
{"id": "C15", "title": "Disassembling followed by gathering is a round trip", "statement": "With an injective numbering, Disassembling any solution vector writes each component exactly to its dof and leaves constrained dofs unchanged; reading the free dofs back gives the same vector; ElementVector gathers exactly the element's dofs.", "quantifier": "all numberings and vectors", "why_tests_cant": "All tables.", "anchors": ["src/FEM/Controller/Assembling.h: Disassembling", "src/FEM/Equation/General.h: ElementVector"]}
{"id": "C16", "title": "The multi-element Assembling overload equals assembling one concatenated element", "statement": "Assembling a coupled element given as several node groups (velocity and pressure) has the same effect as the single-group overload on the concatenated nodes and dof maps.", "quantifier": "all groups, maps and matrices", "why_tests_cant": "All group structures.", "anchors": ["src/FEM/Controller/Assembling.h: Assembling (multi element)"]}
{"id": "C17", "title": "Determinant computes the determinant", "statement": "For every square matrix of every order n >= 1 Determinant() equals the sum over permutations of signed products.", "quantifier": "all orders and entries over any commutative ring (exact arithmetic)", "why_tests_cant": "The code mixes closed forms and Laplace expansion; a test fixes the order.", "anchors": ["src/LinearAlgebra/Models/Matrix.h: Determinant, Cofactor"]}
{"id": "C18", "title": "Inverse is a two-sided inverse", "statement": "For every square matrix whose determinant is nonzero, A*A.Inverse() and A.Inverse()*A are the identity; if the determinant is zero the only possible outcome is a division by zero.", "quantifier": "all orders and entries over any field (exact arithmetic)", "why_tests_cant": "All orders.", "anchors": ["src/LinearAlgebra/Models/Matrix.h: Inverse, Cofactor, Determinant"]}
{"id": "C19", "title": "Dense matrix storage implements matrix algebra", "statement": "For well formed operands with matching shapes, +, -, scalar and matrix products, Transpose, Vstack, Hstack, Block, Identity and Diagonal return well formed matrices with the mathematical entries and never access outside their storage; mismatched shapes abort.", "quantifier": "all shapes and entries", "why_tests_cant": "Index arithmetic i*col+j for every shape.", "anchors": ["src/LinearAlgebra/Models/Matrix.h: operator*, operator+, operator-, Transpose, Vstack, Hstack, Block, Identity, Diagonal"]}
{"id": "C20", "title": "LU with SolveLU solves every nonsingular system", "statement": "For every nonsingular square A and right-hand side b, LU never meets a zero pivot, and SolveLU returns x with A x = b; all multipliers have absolute value at most 1 and pivot is a permutation.", "quantifier": "all orders, nonsingular matrices and right-hand sides (exact arithmetic)", "why_tests_cant": "Existence of a nonzero pivot at each step needs the nonsingularity argument.", "anchors": ["src/LinearAlgebra/Solvers/LU.h: LU, SolveLU"]}
{"id": "C21", "title": "Vector geometry helpers", "statement": "VectorProduct is orthogonal to both arguments and antisymmetric with the Lagrange identity for its norm; Normal returns a unit vector for every nonzero vector and divides by zero otherwise; the dot product is bilinear and Norm squared is the self dot product.", "quantifier": "all vectors", "why_tests_cant": "Universal algebraic laws.", "anchors": ["src/LinearAlgebra/Models/Vector.h: VectorProduct, Normal, Norm, operator*"]}
{"id": "C22", "title": "Convergence reported by the CG family is true convergence", "statement": "Whenever CG, ScalingCG, ILU0CG or SORCG leaves its loop through the convergence test, the returned x satisfies |b - A x| < eps |b| for the true residual, whatever the matrix and preconditioner did.", "quantifier": "all matrices (even non symmetric), right-hand sides, tolerances, iteration counts", "why_tests_cant": "The code monitors a recurrence, not the residual; equality at every step is an invariant.", "anchors": ["src/LinearAlgebra/Solvers/CG.h: CG, ScalingCG, ILU0CG, SORCG"]}
{"id": "C23", "title": "Convergence reported by the BiCGSTAB family is true convergence", "statement": "Whenever BiCGSTAB, ScalingBiCGSTAB, ILU0BiCGSTAB or BiCGSTAB2 leaves its loop through the convergence test, the returned x satisfies |b - A x| < eps |b| for the true residual.", "quantifier": "all matrices, right-hand sides, tolerances, iteration counts", "why_tests_cant": "Long coupled recurrences; the residual identity must hold at each step.", "anchors": ["src/LinearAlgebra/Solvers/CG.h: BiCGSTAB, BiCGSTAB2, ScalingBiCGSTAB, ILU0BiCGSTAB"]}
{"id": "C24", "title": "CG terminates with the exact solution in at most n steps", "statement": "For symmetric positive definite A of order n, in exact arithmetic CG never divides by zero before its residual vanishes, its residuals are mutually orthogonal and its directions conjugate, and the residual is zero after at most n steps.", "quantifier": "all orders, all SPD matrices, all right-hand sides", "why_tests_cant": "Orthogonality against all previous vectors is an inductive fact.", "anchors": ["src/LinearAlgebra/Solvers/CG.h: CG"]}
{"id": "C25", "title": "Solvers handle a zero right-hand side", "statement": "Solving A x = 0 from the zero start returns x = 0.", "quantifier": "all SPD matrices", "why_tests_cant": "The convergence test is strict, so the behaviour hinges on 0 < eps*0.", "anchors": ["src/LinearAlgebra/Solvers/CG.h: CG"]}
{"id": "C26", "title": "ILU0 reproduces the matrix on its sparsity pattern", "statement": "For a well formed CSR with stored nonzero pivots, the factors returned by ILU0 keep the pattern and their product equals A at every stored position.", "quantifier": "all patterns and sizes", "why_tests_cant": "Incomplete elimination over every pattern.", "anchors": ["src/LinearAlgebra/Solvers/CG.h: ILU0"]}
{"id": "C27", "title": "PreILU0 solves with the incomplete factors", "statement": "PreILU0(M,b) returns the vector x with L U x = b, where L is unit lower and U upper part of M, whenever all diagonal entries are stored and nonzero.", "quantifier": "all well formed CSR matrices, all right-hand sides", "why_tests_cant": "Triangular solves over every pattern.", "anchors": ["src/LinearAlgebra/Solvers/CG.h: PreILU0"]}
{"id": "C28", "title": "SOR stops only at solutions when it stops moving", "statement": "If one SOR sweep leaves x unchanged, then A x = b (for nonzero relaxation factor and nonzero diagonal); each sweep is the textbook SOR update.", "quantifier": "all matrices, right-hand sides and factors", "why_tests_cant": "Fixed points over all systems.", "anchors": ["src/LinearAlgebra/Solvers/CG.h: SOR"]}
{"id": "C29", "title": "Shape functions form a partition of unity", "statement": "For every element family the shape function values sum to 1 and each row of derivatives sums to 0 at every point of the parent domain.", "quantifier": "all points", "why_tests_cant": "A polynomial identity at every point.", "anchors": ["src/FEM/Controller/ShapeFunction.h: all N, dNdr"]}
{"id": "C30", "title": "Shape functions interpolate at their own nodes", "statement": "For each element family N_i(Points[j]) is 1 if i=j and 0 otherwise, and Points has one entry per shape function.", "quantifier": "all families and node pairs", "why_tests_cant": "Finite, but users rely on it for every family (extrapolation, nodal normals).", "anchors": ["src/FEM/Controller/ShapeFunction.h: Points, N"]}
{"id": "C31", "title": "dNdr is the gradient of N", "statement": "For each element family dNdr(r)(k,i) is the partial derivative of N_i with respect to r_k at every point.", "quantifier": "all points", "why_tests_cant": "Derivative identity at every point.", "anchors": ["src/FEM/Controller/ShapeFunction.h: N, dNdr"]}
{"id": "C32", "title": "Isoparametric completeness", "statement": "For each family, sum_i N_i(r)*Points[i] = r, so every affine field is reproduced exactly inside the parent element.", "quantifier": "all points, all affine fields", "why_tests_cant": "Identity at every point.", "anchors": ["src/FEM/Controller/ShapeFunction.h: Points, N"]}
{"id": "C33", "title": "Quadrature rules integrate exactly up to their degree", "statement": "Each Gauss and Newton-Cotes rule integrates every polynomial up to its stated degree exactly over its reference domain.", "quantifier": "all polynomials up to the degree", "why_tests_cant": "All polynomials.", "anchors": ["src/FEM/Controller/GaussIntegration.h", "src/FEM/Controller/NewtonCotesIntegration.h"]}
{"id": "C34", "title": "Element stiffness matrices are symmetric", "statement": "PlaneStrain, PlaneStress, PlaneStiffness (symmetric D), Solid, HeatTransfer, Diffusion, Mass and Truss element matrices are symmetric for every geometry on which they are defined.", "quantifier": "all node coordinates, materials, shape functions and rules", "why_tests_cant": "All geometries.", "anchors": ["src/FEM/Equation/PlaneStrain.h", "src/FEM/Equation/PlaneStress.h", "src/FEM/Equation/Solid.h", "src/FEM/Equation/HeatTransfer.h", "src/FEM/Equation/Truss.h"]}
{"id": "C35", "title": "Element stiffness is positive semi-definite for physical materials", "statement": "With positive Jacobians and weights, E >= 0, -1 < nu < 1/2 and t >= 0 the quadratic form of the plane strain, plane stress and solid stiffness is nonnegative for every displacement.", "quantifier": "all geometries, displacements, materials in range", "why_tests_cant": "All geometries and displacements.", "anchors": ["src/FEM/Equation/PlaneStrain.h: PlaneStrainStiffness", "src/FEM/Equation/PlaneStress.h: PlaneStressStiffness", "src/FEM/Equation/Solid.h: SolidLinearIsotropicElastic"]}
{"id": "C36", "title": "Rigid body motions produce no elastic force", "statement": "Translations and linearised rotations are in the null space of the plane strain, plane stress and solid element stiffness; constant temperature is in the null space of HeatTransfer.", "quantifier": "all geometries, shape functions with partition of unity, rules", "why_tests_cant": "All geometries.", "anchors": ["src/FEM/Equation/PlaneStrain.h: PlaneStrainStiffness", "src/FEM/Equation/PlaneStress.h: PlaneStressStiffness", "src/FEM/Equation/Solid.h: SolidLinearIsotropicElastic", "src/FEM/Equation/HeatTransfer.h: HeatTransfer"]}
{"id": "C37", "title": "Element mass is conserved", "statement": "The entries of each translational block of the consistent mass matrices sum to density times thickness times the element area as computed by Area with the same rule; the lumped matrix has the same total.", "quantifier": "all geometries, shape functions with partition of unity, rules", "why_tests_cant": "All geometries.", "anchors": ["src/FEM/Equation/PlaneStrain.h: PlaneStrainMass", "src/FEM/Equation/ReactionDiffusion.h: ReactionDiffusionConsistentMass, ReactionDiffusionLumpedMass", "src/FEM/Equation/HeatTransfer.h: HeatCapacity", "src/FEM/Equation/General.h: Area"]}
{"id": "C38", "title": "Selective integration variants agree with full integration", "statement": "PlaneStrainStiffnessSRI and PlaneStrainStiffnessBbar with the same rule for both parts equal PlaneStrainStiffness; PlaneStiffnessBbar with the same rule equals PlaneStiffness for every symmetric D.", "quantifier": "all geometries and materials", "why_tests_cant": "Matrix identity over all geometries.", "anchors": ["src/FEM/Equation/PlaneStrain.h: PlaneStrainStiffnessSRI, PlaneStrainStiffnessBbar", "src/FEM/Equation/Homogenization.h: PlaneStiffness, PlaneStiffnessBbar"]}
{"id": "C39", "title": "The total Lagrange tangent is the derivative of its residual", "statement": "For every displacement and direction the derivative of the residual vector of PlaneStrainStiffnessTotalLagrange is minus the tangent matrix times the direction, and at zero displacement the tangent equals PlaneStrainStiffness with the same thickness.", "quantifier": "all geometries, displacements, directions", "why_tests_cant": "Derivative identity.", "anchors": ["src/FEM/Equation/PlaneStrain.h: PlaneStrainStiffnessTotalLagrange, PlaneStrainStiffness"]}
{"id": "C40", "title": "The Navier-Stokes tangent is the derivative of its residual", "statement": "For every state and direction the derivative of the residual of NavierStokesTangent is minus the tangent times the direction.", "quantifier": "all geometries, states, directions", "why_tests_cant": "Derivative identity.", "anchors": ["src/FEM/Equation/NavierStokes.h: NavierStokesTangent"]}
{"id": "C41", "title": "Stokes viscous force vanishes for rigid rotation", "statement": "The velocity block of StokesStiffness annihilates rigid body velocities.", "quantifier": "all geometries", "why_tests_cant": "Identity over all geometries.", "anchors": ["src/FEM/Equation/Stokes.h: StokesStiffness"]}
{"id": "C42", "title": "The weak spring removes rigid body modes", "statement": "Assembling WeakSpring with alpha > 0 over elements touching every node adds a positive definite contribution on the listed dofs.", "quantifier": "all meshes and dof lists", "why_tests_cant": "Definiteness over all vectors.", "anchors": ["src/FEM/Equation/General.h: WeakSpring"]}
{"id": "C43", "title": "Truss element is the exact linear bar", "statement": "Truss2D is symmetric positive semi-definite, annihilates translations and infinitesimal rotations, and its energy is EA/l times the squared axial elongation; coincident nodes divide by zero.", "quantifier": "all node positions and displacements", "why_tests_cant": "All geometries.", "anchors": ["src/FEM/Equation/Truss.h: Truss2D"]}
{"id": "C44", "title": "Density filter is an averaging operator", "statement": "With nonnegative weights and positive sums GetFilteredVariables stays between the minimum and maximum of its neighbours, preserves constants and is linear.", "quantifier": "all neighbour lists, weights, densities", "why_tests_cant": "All weights.", "anchors": ["src/Optimize/Filter/DensityFilter.h: GetFilteredVariables"]}
{"id": "C45", "title": "Filter sensitivities follow the chain rule", "statement": "GetFilteredSensitivitis returns the gradient with respect to the design variables of any function of the filtered variables.", "quantifier": "all weights and sensitivities", "why_tests_cant": "Adjoint identity.", "anchors": ["src/Optimize/Filter/DensityFilter.h: GetFilteredSensitivitis", "src/Optimize/Filter/HeavisideFilter.h: GetFilteredSensitivitis"]}
{"id": "C46", "title": "Heaviside projection maps [0,1] into [0,1]", "statement": "For beta > 0 and densities in [0,1] the projected densities are in [0,1], monotone in each variable, and all-zero, all-half and all-one fields are fixed.", "quantifier": "all weights, densities, beta", "why_tests_cant": "Analytic inequality.", "anchors": ["src/Optimize/Filter/HeavisideFilter.h: GetFilteredVariables"]}
{"id": "C47", "title": "OC keeps design variables in their box", "statement": "UpdateVariables returns variables between the bounds given at construction and within the move limit.", "quantifier": "all inputs", "why_tests_cant": "All multipliers reached by bisection.", "anchors": ["src/Optimize/Solver/OC.h: UpdateVariables"]}
{"id": "C48", "title": "MMA iterates stay inside bounds and asymptotes", "statement": "If UpdateVariables terminates, the new variables lie strictly between the move limits, hence within [xmin,xmax] and between the asymptotes.", "quantifier": "all inputs", "why_tests_cant": "Interior point invariant over all inner iterations.", "anchors": ["src/Optimize/Solver/MMA.h: UpdateVariables"]}
{"id": "C49", "title": "The dense solver inside MMA and CONLIN solves its system", "statement": "solvels returns the solution of A x = b for every nonsingular A.", "quantifier": "all orders and systems", "why_tests_cant": "All systems.", "anchors": ["src/Optimize/Solver/MMA.h: solvels", "src/Optimize/Solver/CONLIN.h: solvels"]}
{"id": "C50", "title": "SquareMesh produces a conforming mesh", "statement": "Every element references existing distinct nodes, elements are counter-clockwise cells tiling the rectangle, every interior edge is shared by exactly two elements in opposite directions and GenerateEdges lists exactly the edges used once.", "quantifier": "all subdivisions and sizes", "why_tests_cant": "Index arithmetic for all sizes.", "anchors": ["src/PrePost/Mesher/SquareMesh.h: SquareMesh"]}
{"id": "C51", "title": "GenerateFixedlist selects exactly the nodes satisfying the predicate", "statement": "For the structured meshers the returned list contains (node,dof) exactly for nodes whose generated coordinates satisfy the predicate.", "quantifier": "all sizes and predicates", "why_tests_cant": "All predicates.", "anchors": ["src/PrePost/Mesher/SquareMesh.h: GenerateFixedlist", "src/PrePost/Mesher/SquareAnnulusMesh.h: GenerateFixedlist"]}
{"id": "C52", "title": "SquareAnnulusMesh2 produces a conforming mesh with a hole", "statement": "Every element references the four corner nodes of its cell and no cell of the hole, for all subdivisions with nv,nw >= 1 of matching parity.", "quantifier": "all subdivisions", "why_tests_cant": "Index arithmetic for all sizes.", "anchors": ["src/PrePost/Mesher/SquareAnnulusMesh.h: SquareAnnulusMesh2"]}
{"id": "C53", "title": "GrandStructure lists each admissible bar once", "statement": "GenerateElements returns every unordered pair of nodes closer than the limit exactly once.", "quantifier": "all node grids and limits", "why_tests_cant": "All sizes.", "anchors": ["src/PrePost/Mesher/GrandStructure.h: GenerateElements"]}
{"id": "C54", "title": "VTK export is readable back", "statement": "The token stream written for points, cells and data is parsed back by the VTK import into the same numbers (vectors padded to three components), with counts matching.", "quantifier": "all meshes and fields", "why_tests_cant": "All sizes.", "anchors": ["src/PrePost/Export/ExportToVTK.h", "src/PrePost/Import/ImportFromVTK2.h", "src/PrePost/Import/ImportFromVTK.h"]}
{"id": "C55", "title": "CSV import returns the file's rows", "statement": "Import functions return, for well formed files, exactly one record per data line in file order with the fields of that line; missing trailing fields are not invented.", "quantifier": "all files", "why_tests_cant": "All files.", "anchors": ["src/PrePost/Import/ImportFromCSV.h"]}
{"id": "C56", "title": "BiCGSTAB solves systems that need only a half step", "statement": "BiCGSTAB returns the solution also when its first half step already produces it (e.g. A = identity).", "quantifier": "all orders and right-hand sides", "why_tests_cant": "The failing inputs form a thin set that random testing does not hit.", "anchors": ["src/LinearAlgebra/Solvers/CG.h: BiCGSTAB"]}
{"id": "C57", "title": "SOR sweeps converge for symmetric positive definite matrices", "statement": "For symmetric positive definite A and relaxation factor strictly between 0 and 2, repeated SOR sweeps from any starting vector converge to the solution of A x = b.", "quantifier": "all orders, matrices, right-hand sides, starting vectors, factors", "why_tests_cant": "A limit statement over infinitely many matrices and sweeps.", "anchors": ["src/LinearAlgebra/Solvers/CG.h: SOR"]}
{"id": "C58", "title": "SOR recognises convergence", "statement": "SOR reports convergence once its iterate is the exact solution of a symmetric positive definite system.", "quantifier": "all SPD systems", "why_tests_cant": "Needs every solution vector, also those with zero components.", "anchors": ["src/LinearAlgebra/Solvers/CG.h: SOR"]}
{"id": "C59", "title": "Element matrices are the quadrature of the weak form", "statement": "For every library shape function, rule, node order and non-degenerate geometry, the bilinear form of the returned element matrix on nodal fields y, z equals the quadrature sum of the weak form: lambda tr(e(y)) tr(e(z)) + 2 mu e(y):e(z) times thickness for plane strain, plane stress (with its reduced lambda) and solids, D-weighted engineering strains for PlaneStiffness, conductivity grad y . grad z for heat and diffusion, y (c.grad z) for advection, density y z for masses; the local numbering pairs dof doulist[j] of node i with row m*i+j.", "quantifier": "all shape functions, rules, coordinates, material constants, nodal fields", "why_tests_cant": "Tests compare a few entries for one geometry; the identity is over all fields and geometries.", "anchors": ["src/FEM/Equation/PlaneStrain.h: PlaneStrainStiffness", "src/FEM/Equation/PlaneStress.h", "src/FEM/Equation/Solid.h", "src/FEM/Equation/HeatTransfer.h", "src/FEM/Equation/Advection.h", "src/FEM/Equation/ReactionDiffusion.h"]}
{"id": "C60", "title": "Area and Volume", "statement": "Area and Volume return the quadrature of the Jacobian determinant; for a straight-sided triangle or quadrilateral with any of the library's triangle or square rules Area is the signed area of the shoelace formula, independent of the rule.", "quantifier": "all coordinates and node orders", "why_tests_cant": "All real coordinates, all rules.", "anchors": ["src/FEM/Equation/General.h: Area", "src/FEM/Equation/General.h: Volume"]}
{"id": "C61", "title": "NavierStokesStiffness is convection plus the symmetric viscous form", "statement": "For every pair of velocity and pressure shapes, rule, geometry and advecting velocity, the bilinear form of NavierStokesStiffness on nodal flows (y, z) is the quadrature of rho y.(u.grad)z + 2 mu e(y):e(z); without convection (rho = 0) the matrix is symmetric, positive semi-definite for mu >= 0 and annihilates every rigid body velocity.", "quantifier": "all shapes, rules, geometries, velocities, constants", "why_tests_cant": "An identity over all geometries and nodal fields.", "anchors": ["src/FEM/Equation/NavierStokes.h: NavierStokesStiffness"]}
{"id": "C62", "title": "Newton residual and Picard system agree", "statement": "The residual returned by NavierStokesTangent is, entry by entry, minus (NavierStokesStiffness with the current velocity + ContinuityStiffness) applied to the current state, so both solution methods have the same solutions.", "quantifier": "all states, shapes, geometries, constants", "why_tests_cant": "Two separately written routines must agree for every state.", "anchors": ["src/FEM/Equation/NavierStokes.h: NavierStokesTangent", "src/FEM/Equation/NavierStokes.h: NavierStokesStiffness", "src/FEM/Equation/NavierStokes.h: ContinuityStiffness"]}
{"id": "C63", "title": "NavierStokesAdjoint is the transposed derivative of the residual", "statement": "With the sign of pressure unknowns and pressure equations changed, NavierStokesAdjoint is the transpose of the exact derivative of the residual of NavierStokesTangent along every line of states.", "quantifier": "all states, directions, shapes, geometries, constants", "why_tests_cant": "A limit statement; finite differences are only approximate.", "anchors": ["src/FEM/Equation/NavierStokes.h: NavierStokesAdjoint"]}
{"id": "C64", "title": "Continuity and SUPG/PSPG matrices", "statement": "ContinuityStiffness is skew symmetric (does no work on any flow) and vanishes on uniform velocities; whenever the three SUPG/PSPG routines return, they use at each integration point one common parameter 0 < tau <= |dt|/2 and are the quadratures of tau (u.grad y + grad q) times rho u.grad z, grad p and rho z.", "quantifier": "all states, shapes, geometries, constants", "why_tests_cant": "An identity over all fields; the parameter differs point by point.", "anchors": ["src/FEM/Equation/NavierStokes.h: ContinuityStiffness", "src/FEM/Equation/NavierStokes.h: NavierStokesSUPGPSPGStiffness", "src/FEM/Equation/NavierStokes.h: ContinuitySUPGPSPGStiffness", "src/FEM/Equation/NavierStokes.h: NavierStokesSUPGPSPGConsistentMass"]}
{"id": "C65", "title": "Flow mass and drag matrices", "statement": "The consistent masses are the quadrature of rho y.z, symmetric, positive semi-definite and give the total momentum of uniform flows; the Brinkman matrix is the quadrature of y.kz; the lumped mass is diagonal and its entries add up to rho times the area in each component.", "quantifier": "all shapes, geometries, constants", "why_tests_cant": "All geometries.", "anchors": ["src/FEM/Equation/Stokes.h: StokesMass", "src/FEM/Equation/NavierStokes.h: NavierStokesConsistentMass", "src/FEM/Equation/Stokes.h: BrinkmanBodyForce", "src/FEM/Equation/NavierStokes.h: NavierStokesDecoupledConsistentMass"]}
{"id": "C66", "title": "Flow body force", "statement": "The body force vector is the quadrature of f(x).y; its entries add up to the total force in each component and the pressure equations receive no load.", "quantifier": "all shapes, geometries, force functions", "why_tests_cant": "All force functions.", "anchors": ["src/FEM/Equation/Stokes.h: StokesBodyForce", "src/FEM/Equation/NavierStokes.h: NavierStokesBodyForce"]}
{"id": "C67", "title": "Decoupled Navier-Stokes steps", "statement": "The pressure Poisson matrix is the Laplacian (symmetric, positive semi-definite, constants in the kernel) with right-hand side -rho/dt div u; the velocity steps are driven by minus (rho u.grad u, mu grad u) and minus grad p.", "quantifier": "all shapes, geometries, states, constants", "why_tests_cant": "All fields.", "anchors": ["src/FEM/Equation/NavierStokes.h: NavierStokesPressurePoisson", "src/FEM/Equation/NavierStokes.h: NavierStokesAuxiliaryVelocity", "src/FEM/Equation/NavierStokes.h: NavierStokesNextstepVelocity"]}
{"id": "C68", "title": "Sensitivity filters are weighted averages", "statement": "With nonnegative weights and positive densities Sigmund's filter times the density is the mean of density times sensitivity, keeps nonpositive sensitivities nonpositive and stays between the neighbours' extremes where the density is uniform; Borrvall's filter stays between the neighbours' extremes always.", "quantifier": "all neighbour lists, weights, densities, sensitivities", "why_tests_cant": "All weights and fields.", "anchors": ["src/Optimize/Filter/SensitivityFilter.h: GetFilteredSensitivitis"]}
{"id": "C69", "title": "OC bisection returns a feasible design", "statement": "With decreasing objective and increasing constraint the bisection on the multiplier terminates for every constraint function, and the returned design satisfies the constraint whenever some multiplier in the bracket gives a feasible design; a design satisfying the optimality condition is a fixed point.", "quantifier": "all inputs and constraint functions", "why_tests_cant": "The last multiplier tried depends on the whole history of the bisection.", "anchors": ["src/Optimize/Solver/OC.h: UpdateVariables"]}
{"id": "C70", "title": "IsConvergence reports convergence only when the relative change is small", "statement": "IsConvergence of OC, MMA and CONLIN returns true only when the change of the objective is less than eps times the size of the objective values.", "quantifier": "all objective values and tolerances", "why_tests_cant": "Depends on the sign of the objective.", "anchors": ["src/Optimize/Solver/OC.h: IsConvergence", "src/Optimize/Solver/MMA.h: IsConvergence", "src/Optimize/Solver/CONLIN.h: IsConvergence"]}
{"id": "C71", "title": "MMA and CONLIN stop at a KKT point of their subproblem", "statement": "When UpdateVariables returns, the new variables belong to a strictly interior primal-dual point of the subproblem built from the current values and derivatives, and every one of the perturbed optimality conditions (stationarity in x, y, z, the constraints, all complementarity conditions) holds up to 0.9e-6 with a barrier parameter of at most 1e-6.", "quantifier": "all states, variables, values and derivatives, any number of variables and constraints", "why_tests_cant": "The number of Newton iterations is unbounded and the point depends on all of them.", "anchors": ["src/Optimize/Solver/MMA.h: UpdateVariables", "src/Optimize/Solver/MMA.h: KKTNorm", "src/Optimize/Solver/CONLIN.h: UpdateVariables", "src/Optimize/Solver/CONLIN.h: KKTNorm"]}
{"id": "C72", "title": "The MMA and CONLIN subproblems are convex first-order approximations", "statement": "At the current variables the subproblem has the constraint values and all derivatives passed by the caller, and its objective and constraints are convex (between the asymptotes for MMA, for positive variables for CONLIN) whatever the signs of the derivatives.", "quantifier": "all states, variables, derivatives", "why_tests_cant": "Derivatives of all functions in all variables; convexity quantifies over all pairs of points.", "anchors": ["src/Optimize/Solver/MMA.h: UpdateVariables", "src/Optimize/Solver/CONLIN.h: UpdateVariables"]}
{"id": "C73", "title": "The returned variables nearly minimise the subproblem", "statement": "The variables returned by UpdateVariables violate the constraints of the subproblem by at most 0.9e-6, and no feasible point has an objective smaller by more than 1.9e-6 per unknown plus 0.9e-6 times (distance + sum of the multipliers).", "quantifier": "all calls and all competing feasible points", "why_tests_cant": "Compares with every feasible point.", "anchors": ["src/Optimize/Solver/MMA.h: UpdateVariables", "src/Optimize/Solver/CONLIN.h: UpdateVariables"]}
{"id": "C74", "title": "The inner iteration of MMA and CONLIN is Newton's method", "statement": "At every interior point the linear system can be solved and the direction is the Newton direction for the complete system of perturbed optimality conditions: along it each residual r has derivative -r.", "quantifier": "all interior points, both reduced systems (n > m and n <= m)", "why_tests_cant": "The elimination of unknowns must be exact for every size and point; a wrong direction only slows the loop down or makes it run for ever.", "anchors": ["src/Optimize/Solver/MMA.h: UpdateVariables", "src/Optimize/Solver/CONLIN.h: UpdateVariables"]}
{"id": "C75", "title": "MMA asymptotes follow Svanberg's rule", "statement": "In the first two calls the asymptotes are asyinit box widths away; later the old distances are scaled by asydecr for oscillating variables, by asyincr for variables keeping their direction, by one otherwise; the result is kept between 0.01 and 10 box widths from the iterate.", "quantifier": "all states and variables", "why_tests_cant": "Depends on three consecutive iterates.", "anchors": ["src/Optimize/Solver/MMA.h: UpdateVariables"]}
{"id": "C76", "title": "SquareMesh2 generates a conforming graded mesh", "statement": "For nx, ny >= 1, positive sides and positive grading ratios other than 1, SquareMesh2 generates a conforming mesh that tiles the rectangle with its boundary edges; its coordinates are symmetric about the centre and successive widths grow by the given ratio towards the centre; a ratio of exactly 1 divides by zero.", "quantifier": "all sizes, sides and grading ratios", "why_tests_cant": "Depends on two divisions and real parameters.", "anchors": ["src/PrePost/Mesher/SquareMesh2.h: GenerateNodes, GenerateElements, GenerateEdges"]}
{"id": "C77", "title": "The annulus meshers generate conforming meshes of the right size", "statement": "AnnulusMesh (nt >= 3), SquareAnnulusMesh and SquareCircleAnnulusMesh generate conforming meshes with exactly their boundary edges; the elements of the first two are counter-clockwise and their areas add up to the area between the two polygons or rectangles; the first and last layers of the third lie on the circle and on the rectangle.", "quantifier": "all subdivisions and sizes", "why_tests_cant": "Index arithmetic modulo the ring length, and real parameters.", "anchors": ["src/PrePost/Mesher/AnnulusMesh.h", "src/PrePost/Mesher/SquareAnnulusMesh.h: SquareAnnulusMesh", "src/PrePost/Mesher/SquareCircleAnnulusMesh.h"]}
{"id": "C78", "title": "BiCGSTAB and BiCGSTAB2 iterations satisfy their defining conditions", "statement": "In every iteration of BiCGSTAB, ILU0BiCGSTAB, ScalingBiCGSTAB and BiCGSTAB2 that does not divide by zero, the shadow residual is orthogonal to the residual of the half step, the stabilising coefficients give the shortest possible new residual (over t - c A t, in odd BiCGSTAB2 steps over t - e y - c A t), and the next BiCGSTAB search direction is conjugate: (r*, A K (t + beta p)) = 0.", "quantifier": "all square CSR matrices, all linear preconditioners K, all states, all iterations", "why_tests_cant": "a wrong beta or omega still lets the solvers converge on easy systems; only the iteration count changes", "anchors": ["src/LinearAlgebra/Solvers/CG.h:158-193", "src/LinearAlgebra/Solvers/CG.h:197-253", "src/LinearAlgebra/Solvers/CG.h:356-393", "src/LinearAlgebra/Solvers/CG.h:457-495"]}
{"id": "C79", "title": "The BiCGSTAB solvers finish within the order of the matrix", "statement": "For every square matrix of order n, nonzero b, eps > 0 and itrmax > n, BiCGSTAB, ILU0BiCGSTAB, ScalingBiCGSTAB and BiCGSTAB2 in exact arithmetic either report convergence with a residual below eps |b|, or divide by zero (a breakdown, possible also for nonsingular matrices); they never run through all iterations without converging.", "quantifier": "all square CSR matrices, right hand sides, tolerances and iteration limits above the order", "why_tests_cant": "finite termination is a statement about every matrix; floating point tests cannot separate it from plain luck", "anchors": ["src/LinearAlgebra/Solvers/CG.h:158-193", "src/LinearAlgebra/Solvers/CG.h:197-253", "src/LinearAlgebra/Solvers/CG.h:356-393", "src/LinearAlgebra/Solvers/CG.h:457-495"]}
{"id": "C80", "title": "The VTK importer's calls may be made in any order", "statement": "The import functions of ImportModelFromVTK return the data of the file whatever other import calls were made before; in particular ImportPOINTS returns the nodes also after ImportCELLS.", "quantifier": "all exported files and all orders of the calls", "why_tests_cant": "Order of calls on every mesh; an empty result looks like an empty file.", "anchors": ["src/PrePost/Import/ImportFromVTK.h"]}
{"id": "C81", "title": "The updated Lagrange elements derive from the neo-Hookean energy", "statement": "Let Psi = mu/2 (F:F - d) - mu ln J + lambda/2 (ln J)^2. For every displacement with J > 0 at all Gauss points the residual of PlaneStrainStiffnessUpdatedLagrange (d = 2) and SolidUpdatedLagrange (d = 3) is minus the derivative of the energy integrated over the undeformed element; the matrix is symmetric and is minus the derivative of the residual; rigid motions of any size give a zero residual; at zero displacement the matrix is the linear stiffness (of unit thickness in the plane case).", "quantifier": "all geometries, shape functions, quadrature rules, displacements with positive J and directions", "why_tests_cant": "Derivative identities between two configurations over all displacements.", "anchors": ["src/FEM/Equation/PlaneStrain.h: PlaneStrainStiffnessUpdatedLagrange", "src/FEM/Equation/Solid.h: SolidUpdatedLagrange"]}
{"id": "C82", "title": "Distributed loads do the work of the given density", "statement": "PlaneStrainSurfaceForce, PlaneStressSurfaceForce, StokesSurfaceForce and HeatTransferSurfaceFlux (on an edge) and PlaneStrainBodyForce, PlaneStressBodyForce and ReactionDiffusionReaction (on an element) return nodal loads whose virtual work in every nodal field is the quadrature of the given density against the interpolated field; hence the nodal forces have the resultant force and moment of the load, and a uniform traction on a straight two-node edge is shared equally by its nodes.", "quantifier": "all library shape functions, edges and elements, rules, load functions and nodal fields", "why_tests_cant": "Identity in every load function and every nodal field.", "anchors": ["src/FEM/Equation/PlaneStrain.h:421-452", "src/FEM/Equation/PlaneStrain.h:503-534", "src/FEM/Equation/PlaneStress.h:98-165", "src/FEM/Equation/Stokes.h:128-172", "src/FEM/Equation/HeatTransfer.h:75-99", "src/FEM/Equation/ReactionDiffusion.h:100-132"]}
{"id": "C83", "title": "The follower pressure load and its matrix", "statement": "PlaneStrainSurfacePressureUpdatedLagrange returns the load of a pressure normal to the current edge, with resultant pressure * thickness * the turned chord, and as matrix minus the derivative of that load with respect to the displacement (the sign convention of the other updated Lagrange routines).", "quantifier": "all line elements, rules, displacements, pressures", "why_tests_cant": "Derivative identity over all displacements; a symmetric matrix looks right.", "anchors": ["src/FEM/Equation/PlaneStrain.h: PlaneStrainSurfacePressureUpdatedLagrange"]}
{"id": "C84", "title": "The homogenization routines give the effective elasticity of a unit cell", "statement": "Column c of HomogenizePlaneStrainBodyForce is PlaneStrainStiffness applied to a field of unit strain c. HomogenizePlaneStrainConstitutive integrates, at (r,c), the work on unit strain r of the stress of (unit strain c minus the strain of chi_c), and HomogenizePlaneStrainCheck minus the strain of chi_c; a rigid chi gives thickness*area*D and a chi carrying the unit strain gives 0. When the assembled chi solve K chi = F the summed matrix is the elastic energy of unit strain minus strain of chi, so it is symmetric positive semidefinite.", "quantifier": "all plane shape functions, elements, rules, materials and characteristic displacements", "why_tests_cant": "Relates three routines for every chi; the symmetry holds only for the solved cell problem of a whole mesh.", "anchors": ["src/FEM/Equation/Homogenization.h:20-59", "src/FEM/Equation/Homogenization.h:61-104", "src/FEM/Equation/Homogenization.h:105-140"]}
{"id": "C85", "title": "Streamline upwind and shock capturing terms of the advection equation", "statement": "For a nonzero velocity a, AdvectionSUPG, AdvectionShockCapturing and MassSUPG return the matrices of the forms tau (a.grad y)(a.grad z), tau |a|^2 grad y.grad z and tau (a.grad y) z, with h = 2|a| / sum |a.grad N_i| > 0 on every element and tau = (h/2|a|) min(1, |a|h/6k); for k > 0 and positive weights the first two are symmetric, positive semidefinite and ordered, vanish only on fields without change along a (without gradient), and their rows and columns sum to zero. For a zero velocity they divide zero by zero.", "quantifier": "all plane shape functions, elements, rules, velocities and diffusivities", "why_tests_cant": "Holds for every velocity direction and distorted element; positivity of h is a statement about all elements.", "anchors": ["src/FEM/Equation/Advection.h:49-88", "src/FEM/Equation/Advection.h:92-131", "src/FEM/Equation/Advection.h:189-229"]}
{"id": "C86", "title": "The Wilson-Taylor routines return the stiffness condensed over the incompatible modes", "statement": "PlaneStiffnessWilsonTaylor, for a symmetric positive definite material, positive thickness and positive Jacobians, returns the stiffness whose energy on a nodal displacement is the least elastic energy of the element over the amplitudes of the incompatible displacements 1 - r^2: the resulting stress does no work on the modes, the matrix is symmetric, positive semidefinite and free of rigid motions. The call fails with a division by zero exactly when some nonzero mode combination is strainless at all integration points, which cannot happen when the rule has points with r0 r1 of both signs and always happens with one point. On the four node square with the four point rule only rigid motions have zero energy, a rectangle reproduces the energy of pure bending exactly, and homogeneous stress states are reproduced exactly when the element is a parallelogram.", "quantifier": "all shape functions, rules, elements, materials and thicknesses in the stated class; the four node square with the four point rule for the last three claims", "why_tests_cant": "Energy minimality quantifies over all mode amplitudes and displacements; regularity of the mode block depends on every geometry; a handful of meshes cannot separate parallelograms from near-parallelograms.", "anchors": ["src/FEM/Equation/Homogenization.h:231-280", "src/FEM/Equation/PlaneStrain.h:188-243", "src/LinearAlgebra/Models/Matrix.h:325-360"]}
{"id": "C87", "title": "The Newton passes of MMA and CONLIN take the largest safe step and accept the first decrease", "statement": "In UpdateVariables of MMA and CONLIN one pass of the inner loop moves the primal-dual point along the computed direction by tau/2^k. tau is the largest step of at most 1 that, prolonged by one per cent, keeps all variables between their move limits and all multipliers and slacks nonnegative. k is the first of 0, 1, 2, ... for which the norm of the residuals of the perturbed optimality conditions decreases, or 49 when none of the 50 trials decreases it. Whenever the direction is the Newton direction the squared norm has the slope -2 times its value along it, so a decrease exists for all small steps.", "quantifier": "every subproblem produced from admissible arguments, every strictly interior point and every barrier parameter", "why_tests_cant": "A line search that accepts increases, halves once too often or starts from a shorter step still ends inside the box and usually still converges on a test problem.", "anchors": ["src/Optimize/Solver/MMA.h: UpdateVariables", "src/Optimize/Solver/CONLIN.h: UpdateVariables"]}
{"id": "C88", "title": "Bisection for eigenvalues of tridiagonal matrices", "statement": "For a symmetric tridiagonal matrix with nonzero off-diagonal entries, the sign changes counted at a point are the number of eigenvalues below it, and BisectionMethod returns eigenvalue number mode (from the smallest) up to 1e-13 times the largest absolute row sum, within 45 passes. For the zero matrix it returns an uninitialised variable, and with a zero off-diagonal entry it can miss eigenvalues.", "quantifier": "all tridiagonal matrices with nonzero off-diagonal entries, all modes", "why_tests_cant": "The Sturm property is a statement about all matrices and all points.", "anchors": ["src/LinearAlgebra/Solvers/Lanczos.h: BisectionMethod"]}
{"id": "C89", "title": "Inverse power method for tridiagonal matrices", "statement": "Where no leading block of T - lambda is singular, InversePowerMethod returns a unit vector y; for each unit eigenvector u of T with eigenvalue t, |(T - lambda) y|^10000 |u_0| <= |t - lambda|^10000, and when the other eigenvalues keep the distance g from lambda, (1 - (y.u)^2) u_0^2 <= (|t - lambda|/g)^20000.", "quantifier": "all tridiagonal matrices with nonzero off-diagonal entries, all such lambda", "why_tests_cant": "Convergence for every matrix and shift.", "anchors": ["src/LinearAlgebra/Solvers/Lanczos.h: InversePowerMethod"]}
{"id": "C90", "title": "Lanczos process", "statement": "For symmetric A, when Lanczos returns, its vectors q are orthonormal starting with the normalised diagonal of A, alpha and beta are the entries of the tridiagonal projection Q^T A Q, the returned eigenvalues are those of the projection in increasing order up to 3e-13 |A|, and the vectors are unit combinations of q; with as many steps as rows they are the eigenvalues of A itself and the vectors satisfy the residual bound of the inverse power method. A zero diagonal or a starting vector in an invariant subspace make it divide by zero.", "quantifier": "all symmetric sparse matrices, numbers of steps", "why_tests_cant": "Orthogonality and completeness for all matrices.", "anchors": ["src/LinearAlgebra/Solvers/Lanczos.h: Lanczos", "src/LinearAlgebra/Solvers/Lanczos.h: ReconvertVector"]}
{"id": "C91", "title": "RestartLanczos equals Lanczos", "statement": "In exact arithmetic the additional orthogonalisation of RestartLanczos changes nothing: for symmetric matrices it returns what Lanczos returns.", "quantifier": "all symmetric sparse matrices, numbers of steps", "why_tests_cant": "Equality of two programs on all inputs.", "anchors": ["src/LinearAlgebra/Solvers/Lanczos.h: RestartLanczos"]}
{"id": "C92", "title": "ShiftedInvertLanczos", "statement": "For symmetric A with A - sigma positive definite, when ShiftedInvertLanczos returns, result k is sigma + 1/theta with theta the k-th largest eigenvalue of a tridiagonal T whose recurrence Q T + w e_m^T solves (A - sigma) z_j = q_j column by column up to 1e-10, with unit q_j; the vector is x = Q y with |y| = 1 and (A - sigma)(theta x + Q(T y - theta y) + y_m w) = x up to 1e-10 sum |y_j|.", "quantifier": "all such matrices, shifts, numbers of steps", "why_tests_cant": "Holds for every matrix and shift.", "anchors": ["src/LinearAlgebra/Solvers/Lanczos.h: ShiftedInvertLanczos"]}
{"id": "C93", "title": "Generalised eigenvalue problem by GeneralShiftedInvertLanczos", "statement": "GeneralShiftedInvertLanczos and GeneralRestartShiftedInvertLanczos return eigenvalues of A x = mu B x nearest the shift.", "quantifier": "all symmetric positive definite A, B", "why_tests_cant": "A wrong normalisation shows only for B with q^T B q different from 1.", "anchors": ["src/LinearAlgebra/Solvers/Lanczos.h: GeneralShiftedInvertLanczos", "src/LinearAlgebra/Solvers/Lanczos.h: GeneralRestartShiftedInvertLanczos"]}
{"id": "C94", "title": "Lagrange interpolation and its derivative", "statement": "LagrangeInterpolation(_xs, _x) with distinct points _xs returns one value N_i(_x) per point. N_i is 1 at point i and 0 at the others, and the sum of N_i(x) p(x_i) is p(x) for every polynomial p with as many coefficients as there are points. LagrangeInterpolationDerivative returns the derivatives of the same N_i, hence the exact derivative of such a polynomial. If two points coincide both functions divide by zero.", "quantifier": "every list of points, every argument, every polynomial of the stated degree", "why_tests_cant": "reproduction of all polynomials for every number and position of points is not a finite set of cases", "anchors": ["src/FEM/Equation/General.h:139-173"]}
{"id": "C95", "title": "Nodal and elemental averages and the centre of gravity", "statement": "InterpolateNodalFromElemental(nodesize, ue, elements, un0) gives each node (un0 + the sum of the values of the elements that contain it) divided by their number. With un0 = 0 the nodal values stay between any bounds of the elemental values and the sum of nodal values weighted with the number of adjacent elements equals the sum of elemental values weighted with the number of nodes. InterpolateElementalFromNodal gives each element the mean of its nodes. The overloads for vectors act component by component. CenterOfGravity is the mean of the nodes, and an affine nodal field is averaged to its value there. A node outside all elements makes the whole call divide by zero.", "quantifier": "every mesh, every number of nodes and elements, every value", "why_tests_cant": "the averages hold for every mesh and every valence of a node; tests fix a few meshes", "anchors": ["src/FEM/Equation/General.h:70-77", "src/FEM/Equation/General.h:176-237"]}
{"id": "C96", "title": "Numerical integration on a line", "statement": "NumericIntegrationOnLine on nodes with one coordinate is the quadrature sum of f(x(r)) |x'(r)|. For nodes in the plane or in space, the curves that the length element sqrt(dXdr dXdr^T) is written for, the call always fails: X is created with one column and Vstack asserts equal numbers of columns.", "quantifier": "every shape function of line type, every rule, every integrand, every element", "why_tests_cant": "the failure concerns every curve in the plane and the formula every integrand", "anchors": ["src/FEM/Equation/Numeric.h:17-43", "src/LinearAlgebra/Models/Matrix.h:389-405"]}
{"id": "C97", "title": "The beam element", "statement": "BeamLinearIsotropicElastic returns the matrix of a solid swept out by the two normalised directors of the nodes: its bilinear form is the quadrature, over the axis and the section, of the volume element times E times the axial strains plus 5/6 G times the transverse shear strains, where the rotation of a node turns its directors; dofs 6i..6i+5 belong to node i. The matrix is symmetric, positive semidefinite for E >= 0, 1 + V > 0 and a positive volume element, and every rigid motion produces no force. For two nodes, one point on the axis and a section rule exact to order 2 a straight beam of any position has the Timoshenko matrix in closed form: EA/l, E a b^3/12 and E b a^3/12 over l, shear 5/6 G A, and torsion 5/6 G times the polar moment of the section.", "quantifier": "every line shape function, every pair of rules, every number and position of nodes, directors, sections and moduli", "why_tests_cant": "rigid body invariance, symmetry and the closed form concern every geometry; tests check a few beams", "anchors": ["src/FEM/Equation/Beam.h:20-88"]}
{"id": "C98", "title": "The shell elements", "statement": "ShellLinearIsotropicElastic (5 components per node) and ShellLinearIsotropicElastic2 (6 components) return the matrix of a solid swept out by the unit normals of the surface at the nodes: the form is the quadrature, over the surface and the thickness, of the volume element times the plane stress energy of the layer with 5/6 of the transverse shear energy. Both are symmetric, positive semidefinite for E >= 0 and |V| < 1, and produce no force under rigid motions. The energy of the element with 6 components is that of the element with 5 applied to the rotations about the two tangents, hence rotations about the nodal normals cost no energy. A flat shell is the Reissner-Mindlin plate with membrane stiffness (t, t^3/12, 5/6 G t), and its membrane part is the plane stress element.", "quantifier": "every surface shape function, every pair of rules, every number and position of nodes, every thickness and modulus", "why_tests_cant": "the equivalences hold for every surface and every rule; tests check a few shells", "anchors": ["src/FEM/Equation/Shell.h:20-100", "src/FEM/Equation/Shell.h:104-185"]}
{"id": "C99", "title": "Point location of the triangle mesher", "statement": "For an element whose three nodes run counterclockwise, Element::inouton of a node returns a value from -3 to 3: it is not negative exactly when the node lies in the closed triangle; it is 0 exactly when the node is to the left of all three sides by more than 1e-10 (so strictly inside); i+1 means inside with a cross product of at most 1e-10 with side i; -(i+1) means not in the triangle and not more than 1e-10 to the left of side i.", "quantifier": "for all nodes, all counterclockwise elements and all points", "why_tests_cant": "The answer is a cascade of sign tests on six cross products with a tolerance; tests visit only some of the sign patterns and never the thin band around the sides.", "anchors": ["src/PrePost/Mesher/Delaunay.h:145-169"]}
{"id": "C100", "title": "Subdivision of the triangle mesher keeps a triangulation", "statement": "One round of makefinemesh on a triangulation (counterclockwise elements, mutual neighbors) halves a longest side and returns: the swapping loop ends. The result is a triangulation with the same total area, one more node at the midpoint, one or two more elements, consistent boundary marks, and no swap left at the new node. The same holds for getelementin when inouton is 0 and no neighbor of the node on its boundary list is a corner yet; without that condition a forced swap may turn an element over.", "quantifier": "for all triangulations, all longest sides, all stack contents reached", "why_tests_cant": "Termination of the swapping loop and the neighbor bookkeeping depend on the whole mesh; a test mesh shows one sequence of swaps and usually checks only the picture.", "anchors": ["src/PrePost/Mesher/Delaunay.h:463-497", "src/PrePost/Mesher/Delaunay.h:500-623", "src/PrePost/Mesher/Delaunay.h:626-678", "src/PrePost/Mesher/Delaunay.h:681-703"]}
{"id": "C101", "title": "Smoothing of the triangle mesher", "statement": "laplacesmoothing on a mesh with mutual neighbors and consistent boundary marks returns. It leaves the elements and the boundary nodes as they are, keeps the total signed area, and moves every interior node to the mean of the nodes on a closed ring of elements around it, the nodes with smaller numbers having been moved already. Every half plane that contains the nodes before contains them after. Elements can be turned over by it.", "quantifier": "for all meshes with mutual neighbors and consistent boundary marks, all numbers of repetitions", "why_tests_cant": "The loop over the neighbors ends only if the links around every interior node close; a test sees the rings of one mesh. Loss of orientation needs a non-convex ring, which ordinary domains rarely show.", "anchors": ["src/PrePost/Mesher/Delaunay.h:706-732", "src/PrePost/Mesher/Delaunay.h:234-273"]}
{"id": "C102", "title": "Renumbering in the triangle mesher", "statement": "sortelement makes b the neighbor at a side exactly when b is the first other element with that side in the opposite direction, and leaves the side without neighbor exactly when there is none; if no side occurs twice in one direction the neighbors are mutual. sortnode removes exactly the nodes that were never inserted and gives every corner the new number of the same node, different nodes keeping different numbers, with areas, neighbors and marks unchanged.", "quantifier": "for all lists of nodes and elements whose corners are inserted nodes", "why_tests_cant": "The shift of the node numbers is done once per removed node from the end; an off-by-one shows up only with several removed nodes between the corners of one element.", "anchors": ["src/PrePost/Mesher/Delaunay.h:419-434", "src/PrePost/Mesher/Delaunay.h:437-460"]}
{"id": "C103", "title": "What the constructor of the triangle mesher keeps", "statement": "Whenever Delaunay(x, outer, inner, maxsize, ...) returns, for lists with numbers in range, the nodes on the boundary lists come first, in the order of their numbers and exactly where they were given, marked as boundary nodes; there is one further node for every round of the subdivision; every element is active with corners in range; and maxsize was not negative. The mesh before the subdivision has exactly the listed nodes, and every element has all corners on one outer list without running along it, or a corner on an inner list without running along it; so around a convex polygon the elements are counterclockwise if the list is clockwise and clockwise if it is counterclockwise. If the rough mesh is a triangulation and the smoothing turns no element over, the result keeps the area of the rough mesh, mutual neighbors and all nodes within every half plane that contains the given ones, and no side before the last round was longer than maxsize; a maxsize that is not positive never ends. Without any element left the constructor reads elements[0] of an empty vector.", "quantifier": "for all node coordinates, boundary lists, bounds and numbers of rounds", "why_tests_cant": "The given nodes survive any number of insertions, swaps, deletions, renumberings and smoothings; a test sees one polygon, and the wrong direction of a list shows up only as negative areas.", "anchors": ["src/PrePost/Mesher/Delaunay.h:234-273", "src/PrePost/Mesher/Delaunay.h:276-293", "src/PrePost/Mesher/Delaunay.h:296-344", "src/PrePost/Mesher/Delaunay.h:347-416", "src/PrePost/Mesher/Delaunay.h:681-703"]}
{"id": "C104", "title": "Nodes, elements and edges handed out by the triangle mesher", "statement": "Whenever the constructor of Delaunay returns, for lists with numbers in range, GenerateNodes begins with the nodes on the boundary lists exactly as given, in the order of their numbers, followed by one node per round of the subdivision; GenerateElements and GenerateEdges give triples and pairs of numbers of these nodes, and no element is left out. When neighbors are mutual and agree on the marks and unlinked sides are marked, the edges form closed curves (as many begin at a node as end there) and the cross products over the edges add up to the areas of the elements. GenerateFixedlist gives one zero entry for each node that satisfies the predicate and each component; a negative component is stopped by the assertion, an empty list of components is read past its end.", "quantifier": "for all inputs on which the constructor returns, all meshes with mutual neighbors, all predicates and lists of components", "why_tests_cant": "Closedness of the boundary and the area formula relate two outputs of any mesh; a test compares one mesh with a picture, and an edge in the wrong direction is not seen in it.", "anchors": ["src/PrePost/Mesher/Delaunay.h:735-742", "src/PrePost/Mesher/Delaunay.h:745-754", "src/PrePost/Mesher/Delaunay.h:757-770", "src/PrePost/Mesher/Delaunay.h:773-786", "src/PrePost/Mesher/Delaunay.h:234-273"]}
{"id": "C105", "title": "The patch test: affine fields solve the assembled plane problems exactly", "statement": "On every mesh of plane elements (3-node and 6-node triangles, 4-node and 8-node quadrilaterals, mixed, distorted, with nonzero Jacobians) integrated with the rules of the library meant for them, PlaneStrainStiffness, PlaneStressStiffness, PlaneStiffness, HeatTransfer and Diffusion give element forces that cancel at every node inside the mesh when the nodes hold an affine field. Therefore, if affine values are prescribed at all other nodes and there is no load, the assembled system has a solution for which Disassembling gives exactly the affine field. The nodes of SquareMesh and of the triangle mesher that lie on no edge of GenerateEdges are inside in this sense, and their elements are admissible.", "quantifier": "for all meshes, node coordinates, material constants, affine fields and prescribed values", "why_tests_cant": "The patch test is run on one mesh with a tolerance; an element that is wrong only for distorted shapes or a mixed mesh passes it. The theorem covers every mesh at once.", "anchors": ["src/FEM/Equation/PlaneStrain.h:21-58", "src/FEM/Equation/PlaneStress.h:21-58", "src/FEM/Equation/HeatTransfer.h:20-43", "src/FEM/Equation/Advection.h:136-158", "src/FEM/Equation/Homogenization.h:142-173", "src/FEM/Controller/ShapeFunction.h", "src/FEM/Controller/GaussIntegration.h", "src/FEM/Controller/Assembling.h:15-110", "src/PrePost/Mesher/SquareMesh.h", "src/PrePost/Mesher/Delaunay.h:735-770"]}
{"id": "C106", "title": "A mesh that is held gives a positive definite system, which CG solves", "statement": "On every mesh of 3-node triangles, 4-node quadrilaterals (integrated with a rule with three points that are not on a line) or 4-node tetrahedra with positive Jacobians and positive weights, if every node with a free dof is held - prescribed in all components, or in an element with held nodes that fix its rigid motions (one node for a temperature, two different nodes in the plane, three nodes not on a line in space) - then HeatTransfer, Diffusion, PlaneStrainStiffness, PlaneStressStiffness and SolidLinearIsotropicElastic with admissible constants, SetDirichlet, Renumbering, Assembling and the CSR conversion give a symmetric positive definite matrix; the system has exactly one solution, which Disassembling turns into the field with the prescribed values and equilibrium at all free dofs; CG and ScalingCG with as many iterations as equations report convergence and give a field whose forces are within the tolerance of the loads at every free dof; in the patch test the only solution is the affine field. With the one-point rule Gauss1Square every quadrilateral has alternating nodal values without force.", "quantifier": "for all meshes, node coordinates, supports, loads, admissible material constants and tolerances", "why_tests_cant": "Singular stiffness matrices come from one unsupported node, one rule with too few points or one wrong index; tests only see the meshes they run. The theorem says which supports are enough for every mesh.", "anchors": ["src/FEM/Equation/PlaneStrain.h:21-58", "src/FEM/Equation/PlaneStress.h:21-58", "src/FEM/Equation/HeatTransfer.h:20-43", "src/FEM/Equation/Advection.h:136-158", "src/FEM/Equation/Solid.h", "src/FEM/Controller/ShapeFunction.h", "src/FEM/Controller/GaussIntegration.h", "src/FEM/Controller/Assembling.h:15-110", "src/FEM/Controller/BoundaryCondition.h", "src/LinearAlgebra/Solvers/CG.h"]}
{"id": "C107", "title": "The time loops of the transient samples: one step, stability, conservation", "statement": "On every mesh of 3-node triangles or 4-node quadrilaterals with positive Jacobians and weights, for positive material constants, dt > 0 and theta > 0, the system that one pass of the time loops of sample_heattransfer_dynamic and sample_reactiondiffusion assembles is symmetric and positive definite, even when no dof is fixed; it has exactly one solution, and Disassembling makes of it the only field that keeps the values of the fixed dofs and satisfies, at every free dof, (stored heat after - before)/dt = source - theta*(conducted after) - (1-theta)*(conducted before). CG and ScalingCG with at least as many iterations as equations report convergence and satisfy this balance within the tolerance. A field stays the same exactly if it is in static equilibrium. If theta >= 1/2 and the source does not depend on the field, the distance of two runs with the same fixed values does not grow in the capacity norm for any dt and any number of steps; for every theta < 1/2 there are a mesh, a dt and two runs whose distance grows. If no dof is fixed, every step adds exactly dt times the total source to the heat content.", "quantifier": "all meshes, numberings, fields, dt, theta, sources and numbers of steps", "why_tests_cant": "A test runs one mesh with one dt; stability for every dt, and the exact conservation hidden by the tolerance of the solver, are statements about all of them", "anchors": ["sample/heattransfer/sample_heattransfer_dynamic.cpp:49", "sample/reactiondiffusion/sample_reactiondiffusion.cpp:41", "src/FEM/Equation/HeatTransfer.h", "src/FEM/Equation/ReactionDiffusion.h", "src/FEM/Controller/Assembling.h"]}
{"id": "C108", "title": "The analysis in the topology optimisation samples: equilibrium, balance, exact sensitivities", "statement": "For every plane-strain problem of the density samples (admissible elements of the stable pairs, loads on nodes, zero prescribed values that hold every free node, 0 < E0 <= E1, -1 < nu < 1/2, t > 0), every list of positive densities and every solver that solves symmetric positive definite systems, one pass of the analysis of sample_optimize_density_{oc,mma,CONLIN} succeeds. The displacements are zero at the fixed dofs; the forces r are those of elements with modulus E0 + (E1-E0)*rho^p and equal the loads at every dof that is not fixed; r has no resultant and no moment, so the reactions balance the loads. The objective is scale0 times the work of the loads, and not negative. The returned sensitivities dfdrho are the exact derivatives of the objective: along every differentiable path of designs, and entry i is the partial derivative in rho[i]. More material never raises the objective and no sensitivity is positive. The weight is scale1*(mean density/limit - 1) with its exact derivatives. CG stopped at a zero residual is such a solver.", "quantifier": "all meshes of admissible elements, supports, loads, constants, densities, paths of designs and solvers of SPD systems", "why_tests_cant": "finite differences check a sensitivity at sampled designs to a tolerance; the theorem gives the derivative itself for every mesh and design", "anchors": ["sample/optimize/sample_optimize_density_oc.cpp:96-162", "sample/optimize/sample_optimize_density_mma.cpp", "sample/optimize/sample_optimize_density_CONLIN.cpp", "src/FEM/Equation/PlaneStrain.h", "src/FEM/Controller/Assembling.h", "src/FEM/Controller/BoundaryCondition.h"]}
{"id": "C109", "title": "The optimisation loop of the density sample runs through, keeps the design in (0,1], and when its bisection ends", "statement": "For every rectangle, every number of elements in both directions, every support predicate that includes the left side, every load predicate, every filter radius > 0, positive moduli E0 <= E1, p >= 0, scale factors and limit > 0 and every first density in (0,1], the set-up of sample_optimize_density_oc.cpp succeeds: the mesh is an admissible problem, the centres are the centres of the cells, the neighbours of an element are exactly the elements whose centres are at most the radius away, each once, with weight 1 - distance/radius (symmetric, 1 for the element itself). From every design in (0,1] the body of the loop runs through: the densities are in (0,1], the sensitivities of the objective are never positive, those of the weight positive, and the constraint given to the optimiser equals the weight. After every number of passes the design is in (0,1], each pass changing each variable by at most the move limit, or the bisection of OC::UpdateVariables did not end; there is no other failure. With the lower limit 0 of the sample the bisection ends if and only if the constraint is violated by the design that goes up as far as the move limit allows wherever the sensitivity of the objective is negative and down elsewhere; with an allowed mean density of 1 or more it never ends (in exact arithmetic).", "quantifier": "all sizes, meshes, predicates, radii, constants, designs in (0,1], solvers that solve symmetric positive definite systems, numbers of passes", "why_tests_cant": "Runs of the sample use one mesh, one radius and one limit, and floating point ends the bisection by underflow, so a run cannot show that the test on the relative width of the interval never succeeds for an inactive constraint.", "anchors": ["sample/optimize/sample_optimize_density_oc.cpp:24-226", "src/Optimize/Solver/OC.h: UpdateVariables", "src/Optimize/Filter/HeavisideFilter.h: GetFilteredVariables, GetFilteredSensitivitis", "src/PrePost/Mesher/SquareMesh.h: SquareMesh"]}
{"id": "C110", "title": "How far the sensitivities of the density sample are from the gradient", "statement": "In the loop of sample_optimize_density_oc.cpp the objective and the constraint are differentiable functions of the design. The sensitivity that the loop hands to the optimiser for element i, times the weight sum of element i, lies between a times and b times the partial derivative whenever the weight sums of the neighbours of i lie between a and b; so it has the sign of the partial derivative, and it is the partial derivative when all these weight sums are equal. If the weight sum of an element is the smallest among its neighbours and one of them has a larger one, as at the border of the mesh, the sensitivity of the constraint is larger than its partial derivative, so the vector is not the gradient.", "quantifier": "all problems, filters with symmetric weights, betas > 0, designs in (0,1]", "why_tests_cant": "The deviation is confined to the border of the mesh and does not stop the optimiser; a test against finite differences inside the mesh passes.", "anchors": ["sample/optimize/sample_optimize_density_oc.cpp:92-172", "src/Optimize/Filter/HeavisideFilter.h: GetFilteredSensitivitis"]}
{"id": "C111", "title": "Conjugate gradients on singular systems", "statement": "A system with a symmetric matrix has a solution exactly when its right-hand side is orthogonal to every null vector of the matrix. For a symmetric positive semidefinite matrix, which may be singular, and such a right-hand side, CG in exact arithmetic divides by zero nowhere and reaches a zero residual after at most n steps; CG, and ScalingCG when the diagonal is positive, report convergence within n iterations for any tolerance, with a result as accurate as the tolerance asks. If the right-hand side has a component along a null vector, then for every tolerance small enough no solver of the CG family reports convergence, whatever the number of iterations.", "quantifier": "all n, symmetric (positive semidefinite) CSR matrices, right-hand sides, tolerances and iteration limits", "why_tests_cant": "Singular systems arise from periodic or unsupported meshes; whether a run on one of them converges is a matter of orthogonality to all null vectors, which no finite set of runs covers.", "anchors": ["src/LinearAlgebra/Solvers/CG.h: CG", "src/LinearAlgebra/Solvers/CG.h: ScalingCG", "src/LinearAlgebra/Solvers/CG.h: ILU0CG", "src/LinearAlgebra/Solvers/CG.h: SORCG"]}
{"id": "C112", "title": "The homogenization sample: least energy, symmetry, bounds, independence of the solver", "statement": "For every cell (admissible elements with positive Jacobians and weights, every slave node with one master that is not itself a slave, E >= 0, -1 < nu < 1/2, thickness >= 0, springs >= 0, volume > 0) sample_homogenization builds a symmetric positive semidefinite system whose quadratic form is the energy of the numbered field, and the system has a solution for each of the three right-hand sides. With any solver of consistent semidefinite systems the run succeeds; the characteristic displacements take the same values at both nodes of every pair; the homogenized matrix is symmetric; volume times its quadratic form at a macroscopic strain v is the energy of the cell under v relaxed by the combination of the characteristic displacements, which no periodic field undercuts. So the matrix is positive semidefinite, at most the mean of the material (Voigt), the same for any two solvers although the solutions differ, and grows with the stiffness of the artificial springs by at most a constant times that stiffness. The matrix of the system is singular whatever the stiffness of the springs, because WeakSpring couples both displacements of a node: the translation (1,-1) is a null vector. With springs and every node in an element, ScalingCG still converges within n iterations for every right-hand side that is not zero.", "quantifier": "for all meshes, pairings, shape functions and rules, materials, thicknesses, springs, volumes, macroscopic strains, periodic fields and solvers", "why_tests_cant": "The minimum over all periodic fields and the independence of the solver quantify over infinite sets; a test prints one matrix for one cell, and the singular direction of the matrix is not visible in it.", "anchors": ["sample/homogenization/sample_homogenization.cpp:37-92", "src/FEM/Equation/Homogenization.h", "src/FEM/Equation/General.h:124-135", "src/FEM/Controller/BoundaryCondition.h"]}
{"id": "C113", "title": "Size optimisation of trusses is exact, safe, and its fixed points are global optima", "statement": "For every plane truss of bars of positive length and every design with entries in [0, 1], the analysis of the size-optimisation sample succeeds, returns the unique field that vanishes at the supports and balances the loads, the resistance of the bars, the scaled work of the loads and sensitivities that are its exact derivatives along every path of designs; the matrix is symmetric, and positive definite exactly if the truss is no mechanism. The objective lies above its tangents, so every design that satisfies the optimality conditions with the returned sensitivities, in particular every design with the allowed weight that the optimiser leaves unchanged, is a global optimum. The loop fails in no way except by a bisection that does not end, which happens exactly if the largest helpful step does not exceed the allowed weight. The ground structure of the sample is rigid for every size and number of cells as soon as the bars reach the diagonal of a cell and the two left corners are supported.", "quantifier": "for all trusses, supports, loads, areas, designs, paths of designs, solvers, optimiser parameters, numbers of passes, sizes and numbers of cells", "why_tests_cant": "Global optimality, uniqueness and exact derivatives quantify over infinitely many designs; a test sees one run on one ground structure and cannot tell a local from a global optimum.", "anchors": ["sample/truss/sample_truss_sizeoptimization.cpp:19-172", "src/FEM/Equation/Truss.h:19-41", "src/PrePost/Mesher/GrandStructure.h", "src/Optimize/Solver/OC.h"]}
{"id": "C114", "title": "The total stress design is fully stressed and minimal for determinate trusses only", "statement": "For every rigid truss, all positive areas and all strengths, the total stress design sample succeeds, and the forces of the analysed truss equal the new areas stressed up to the strength of tension or compression, so these balance the loads too; a new area vanishes exactly if the bar carries no force. If the truss is statically determinate and no bar is without force, the analysis with the new areas stresses every bar exactly up to its strength, a second pass changes nothing, and no areas whose stresses stay within the strengths are smaller in any bar. Without determinacy this fails: there is a rigid truss of three bars whose design is overstressed by a fifth.", "quantifier": "for all trusses, supports, loads, areas, strengths and solvers", "why_tests_cant": "The claim compares the result with all other admissible areas, and the failure for indeterminate trusses needs a second analysis that the sample never makes.", "anchors": ["sample/truss/sample_truss_totalstressdesign.cpp:17-77", "src/FEM/Equation/Truss.h:19-41"]}
{"id": "C115", "title": "The level set optimisation sample runs safely and each pass is what its equations say", "statement": "In the level set sample, for every admissible mesh with supports and zero fixed values, every solver that solves symmetric positive definite systems and every structure: the displacements are in equilibrium, objective[t] grows by the work of the loads, which is twice the strain energy; the topological derivative of an element is its weight times the energy of the material with the Lame constants A1 and A2 and is never negative. A pass that goes on replaces phi by the least point of the energy of one backward Euler step of the reaction diffusion equation, cut off at -1 and 1, and empties exactly the elements with a negative mean of phi. The test of convergence stops the loop exactly after five small relative changes at the volume Vmax, and reads objective before its beginning exactly if it is reached in a pass t < 5 with t > nvol. The only other fault is the division by the sum of the topological derivative, exactly if no free dof is loaded. With nvol >= 4 and a loaded free dof every number of passes ends without a fault, phi stays between -1 and 1, str is 0 or 1, elements whose nodes are all fixed in phi are never removed, and multiplying the loads by a factor changes nothing but the objectives, by its square.", "quantifier": "for all meshes of admissible elements, supports, loads, fixed nodes, constants in the stated ranges, solvers, structures, level set functions, numbers of passes and load factors", "why_tests_cant": "the loop of 200 passes depends on every earlier pass, and the bad read and the zero division need special loads or constants that no test run uses", "anchors": ["sample/optimize/sample_optimize_levelset.cpp:23-196"]}
{"id": "C116", "title": "The plane strain sample computes the equilibrium, and what the exported reactions are", "statement": "For every mesh of admissible elements, edges, supports that exclude rigid motions, prescribed values, nodal loads, body force, traction, E > 0, -1 < nu < 1/2 and thickness > 0, and every solver of symmetric positive definite systems, sample_planestrain runs without a fault. The displacements take the prescribed values, do in every admissible field the work of the body force, nodal loads and tractions, are the only field that does, and have strictly the least potential energy among all fields with the prescribed values. The exported forces r do the work of the stresses in every field, equal the nodal equivalents of the loads at every dof that is not prescribed, and have no resultant and no moment. On the mesh of the sample r at the supports depends on the loads alone, and the vertical force at node 0 misses the applied load by a third of the body force per element area times thickness (b*t/3), the part acting on the held node; with the constants of the sample r is 1000 against a load of 1100.", "quantifier": "for all meshes, supports, loads, materials and solvers of SPD systems; for the mesh of the sample all materials, thicknesses and loads", "why_tests_cant": "Least energy and uniqueness compare with all other fields; the missing share of the body force in the reactions is hidden in a picture of the result.", "anchors": ["sample/planestrain/sample_planestrain.cpp:19-80", "src/FEM/Equation/PlaneStrain.h", "src/FEM/Controller/Assembling.h", "src/FEM/Controller/BoundaryCondition.h"]}
{"id": "C117", "title": "The load stepping sample follows the equilibrium path by Newton steps", "statement": "For an element routine that succeeds on all displacements and loads that do not all vanish, the program runs through all load steps without a fault; every exported state carries the prescribed values. Where the inner loop is left by its test and all prescribed values are zero, the scaled loads and the element forces balance in every dof that is not held up to sqrt(tolerance * norm of the scaled loads). With a solver whose answers are solutions, each pass solves the equations linearised at the current displacements: the assembled matrices are minus the derivative of the out-of-balance force along every line of displacements. Three limits hold as well: without loads the test divides by zero; the test compares a squared residual with an unsquared norm, so that the undeformed body is accepted in all steps when the norm of the loads is below the tolerance; and with prescribed values other than zero each pass subtracts the matrices applied to the prescribed displacements once more, so that there are exact equilibrium states that no pass accepts.", "quantifier": "all meshes, prescribed values, loads, numbers of steps and passes, tolerances and solvers; all element routines that succeed (the total Lagrangian routine on all admissible elements and Lame constants for the tangent)", "why_tests_cant": "The tangent and the balance are statements about derivatives and all nonlinear states; the sample only runs one CSV model with zero prescribed values and large loads.", "anchors": ["sample/solid/sample_totallagrange.cpp:30-34", "sample/solid/sample_totallagrange.cpp:44-82", "src/FEM/Equation/Solid.h", "src/FEM/Controller/Assembling.h"]}
{"id": "C118", "title": "The static heat and solid samples return the only field in balance", "statement": "The programs sample_heattransfer_static.cpp and sample_linear.cpp, run with an admissible conduction or elasticity routine, with elements that have no mechanism, with every node held by the prescribed values and with a solver that is right on symmetric positive definite matrices, run without a fault: the exported field has the prescribed values (the last one given for a dof, over all lists), the forces of the elements balance the nodal loads in every other dof, and it is the only field that does both. Eight node bricks with parallel edges under Gauss8Cubic, as in the mesh of the solid sample, have no mechanism, nor have triangles, tetrahedra and quadrilaterals with three points. Between two walls at given temperatures and with level or shared sides elsewhere the heat sample returns the linear profile at every node. Of all fields with the prescribed values that of the program has the least potential energy. Scaled data give the scaled field, and two load cases with zero prescribed values do the same work on each other's fields.", "quantifier": "all meshes, prescribed values, loads, admissible constants, and solvers right on symmetric positive definite systems", "why_tests_cant": "a run shows one mesh and one load case; that no other field balances the loads, that eight points leave no unstrained deformation of a brick, and that the profile is linear on every mesh, are statements about all fields and meshes", "anchors": ["sample/heattransfer/sample_heattransfer_static.cpp:19-54", "sample/solid/sample_linear.cpp:19-48", "src/FEM/Equation/HeatTransfer.h", "src/FEM/Equation/Solid.h", "src/FEM/Controller/Assembling.h", "src/FEM/Controller/BoundaryCondition.h"]}
{"id": "C119", "title": "The beam sample returns the field of least energy; its cantilever bends as a Timoshenko beam", "statement": "The program sample_beam_linear.cpp, run with straight two node beams in any position whose nodes are all connected with a node that has its six components prescribed, and with a solver that is right on symmetric positive definite matrices, runs without a fault: displacements and rotations have the prescribed values, the work of the bars (Timoshenko beams with rectangular section) for every virtual field is that of the loads, no other field does so, no field with the prescribed values has less potential energy, two load cases on a frame with zero prescribed values do the same work on each other's displacements, and the exported displacements are the first three components. For the cantilever of the sample with n elements of length l and the load P at the end, the node at x has the deflection P x / (5/6 G A) + P (L x^2 / 2 - x^3 / 6 - l^2 x / 12) / (E I) and turns by - P (L x - x^2 / 2) / (E I), all other components being zero; at the end the part due to bending is 1 - 1 / (4 n^2) of that of the beam, whatever the section.", "quantifier": "all frames of straight bars, prescribed values, loads, constants E > 0 and V > -1, sections, numbers of elements, and solvers right on symmetric positive definite systems", "why_tests_cant": "a run shows one frame in floating point; that the reduced rule leaves no mechanism in any connected frame, that no other field balances the loads, and the formula for every number of elements and every slenderness are statements about all data", "anchors": ["sample/beam/sample_beam_linear.cpp:19-57", "src/FEM/Equation/Beam.h", "src/FEM/Controller/Assembling.h", "src/FEM/Controller/BoundaryCondition.h", "src/LinearAlgebra/Models/Vector.h:329-337"]}
{"id": "C120", "title": "The static advection-diffusion sample satisfies its stabilised weak form and keeps fields across the flow", "statement": "The program sample_advectiondiffusion_static.cpp, run on counterclockwise triangles with a nonzero velocity in any direction and positive diffusion, where every side is shared by two triangles, or has prescribed values, or is one through which the flow does not enter, where every node is connected with a prescribed one, and with a solver that is right on positive definite matrices, runs without a fault: the temperature has the prescribed values, the weak form of advection, diffusion and streamline diffusion vanishes for every test field that is zero at the prescribed nodes, and no other field does so. If the prescribed values are those of a linear field that does not change along the flow, and the remaining boundary is parallel to its gradient, the program returns this field at every node; equal prescribed values give this value everywhere, and the temperature is linear in the prescribed values. Turning mesh and flow together, or scaling lengths by l, speed by m and diffusion by l m, changes no temperature. With the speed zero the program divides by zero at the first triangle.", "quantifier": "all meshes, prescribed values, speeds, directions, diffusion coefficients, and solvers right on positive definite systems", "why_tests_cant": "a run shows one mesh and one Peclet number; that the unsymmetric matrix is positive definite for every direction of flow, that no other field satisfies the weak form, and exactness across the flow for every mesh and every diffusion, are statements about all fields and meshes", "anchors": ["sample/advection/sample_advectiondiffusion_static.cpp:19-57", "src/FEM/Equation/Advection.h", "src/FEM/Controller/Assembling.h"]}
