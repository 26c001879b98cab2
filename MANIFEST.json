{
 "claims": [
  {
   "property": "C01",
   "status": "proved",
   "theorems": [
    "C01_lil_is_map"
   ],
   "note": "All histories, any scalar type; column index unchecked in code and unrestricted in the theorem."
  },
  {
   "property": "C02",
   "status": "proved",
   "theorems": [
    "C02_csr_is_map",
    "C02_csr_set_step"
   ],
   "note": "All histories from an empty matrix, and one call on any well-formed matrix."
  },
  {
   "property": "C03",
   "status": "proved",
   "theorems": [
    "C03_lil_to_csr"
   ],
   "note": "Includes the effect on the source, which the constructor sorts in place."
  },
  {
   "property": "C04",
   "status": "proved",
   "theorems": [
    "C04_csr_lil_csr_identity"
   ],
   "note": "Array-level identity."
  },
  {
   "property": "C05",
   "status": "proved",
   "theorems": [
    "C05_formats_agree"
   ],
   "note": "get/flags for any history; products over the reals."
  },
  {
   "property": "C06",
   "status": "proved",
   "theorems": [
    "C06_spmv_csr",
    "C06_spmv_lil"
   ],
   "note": "Exact arithmetic (reals)."
  },
  {
   "property": "C07",
   "status": "proved",
   "theorems": [
    "C07_parallel_spmv"
   ],
   "note": "All row distributions, team sizes and interleavings; arbitrary scalar operations, so also bit-for-bit for floating point. Sequentially consistent memory, justified by race freedom."
  },
  {
   "property": "C08",
   "status": "proved",
   "theorems": [
    "C08_csr_add_sub",
    "C08_lil_add_sub",
    "C08_scalars"
   ],
   "note": "Both formats, exact arithmetic; division needs a non-zero scalar."
  },
  {
   "property": "C09",
   "status": "proved",
   "theorems": [
    "C09_renumbering"
   ],
   "note": "All tables."
  },
  {
   "property": "C10",
   "status": "proved",
   "theorems": [
    "C10_dirichlet"
   ],
   "note": "Both SetDirichlet overloads, followed by Renumbering and Disassembling."
  },
  {
   "property": "C11",
   "status": "proved",
   "theorems": [
    "C11_periodic",
    "C11_chain_refuted"
   ],
   "note": "Proved under the property's precondition and more generally; C11_chain_refuted shows the precondition is needed (a master that is a slave of a later pair)."
  },
  {
   "property": "C12",
   "status": "proved",
   "theorems": [
    "C12_assembly_sums",
    "C12_overloads"
   ],
   "note": "All overloads; exact arithmetic."
  },
  {
   "property": "C13",
   "status": "proved",
   "theorems": [
    "C13_equilibrium",
    "C13_complete"
   ],
   "note": "SetDirichlet, Renumbering, Assembling (elements, nodal loads), CSR conversion and product, Disassembling composed; exact arithmetic."
  },
  {
   "property": "C14",
   "status": "proved",
   "theorems": [
    "C14_symmetry_psd"
   ],
   "note": "Any numbering, including shared numbers; the quadratic form is the sum of the element forms."
  },
  {
   "property": "C15",
   "status": "proved",
   "theorems": [
    "C15_round_trip"
   ],
   "note": "Any numbering; ElementVector needs distinct local indices."
  },
  {
   "property": "C16",
   "status": "proved",
   "theorems": [
    "C16_groups"
   ],
   "note": "Equality of results including faults."
  },
  {
   "property": "C17",
   "status": "proved",
   "theorems": [
    "C17_determinant",
    "C17_domain"
   ],
   "note": "Any commutative ring, every order; closed under the global context."
  },
  {
   "property": "C18",
   "status": "proved",
   "theorems": [
    "C18_inverse",
    "C18_singular"
   ],
   "note": "Any field, every order; singular matrices give a division by zero."
  },
  {
   "property": "C19",
   "status": "proved",
   "theorems": [
    "C19_write",
    "C19_add_sub",
    "C19_scalar",
    "C19_product",
    "C19_reshape",
    "C19_constructors",
    "C19_mismatch",
    "C19_vectors"
   ],
   "note": "Any scalar type and operations; mismatched shapes abort."
  },
  {
   "property": "C20",
   "status": "proved",
   "theorems": [
    "C20_lu_solves",
    "C20_shapes"
   ],
   "note": "Exact arithmetic. Includes the factorisation P A = L U."
  },
  {
   "property": "C21",
   "status": "proved",
   "theorems": [
    "C21_dot",
    "C21_vector_product",
    "C21_normal"
   ],
   "note": "Exact arithmetic over the reals."
  },
  {
   "property": "C22",
   "status": "proved",
   "theorems": [
    "C22_cg_family"
   ],
   "note": ""
  },
  {
   "property": "C23",
   "status": "proved",
   "theorems": [
    "C23_bicgstab_family"
   ],
   "note": ""
  },
  {
   "property": "C24",
   "status": "proved",
   "theorems": [
    "C24_cg_converges",
    "C24_cg_trace",
    "C24_scaling_cg",
    "C24_ilu0_cg"
   ],
   "note": "Exact arithmetic. Trace, finite termination, scaled and ILU0-preconditioned CG (positive computed pivots)."
  },
  {
   "property": "C25",
   "status": "partial",
   "theorems": [
    "C25_zero_rhs",
    "C25_zero_rhs_refuted"
   ],
   "note": "Property is false of the code (refuted): 0/0 in the first iteration for every matrix; C25_zero_rhs gives the general statement, C25_zero_rhs_refuted the witness."
  },
  {
   "property": "C26",
   "status": "proved",
   "theorems": [
    "C26_ilu0",
    "C26_complete",
    "C26_no_fill_in"
   ],
   "note": ""
  },
  {
   "property": "C27",
   "status": "proved",
   "theorems": [
    "C27_pre_ilu0"
   ],
   "note": ""
  },
  {
   "property": "C28",
   "status": "proved",
   "theorems": [
    "C28_sweep",
    "C28_fixed_point",
    "C28_energy",
    "C28_stop_test"
   ],
   "note": ""
  },
  {
   "property": "C29",
   "status": "proved",
   "theorems": [
    "C29_partition_of_unity"
   ],
   "note": ""
  },
  {
   "property": "C30",
   "status": "partial",
   "theorems": [
    "C30_kronecker",
    "C30_kronecker_20",
    "C30_kronecker_refuted"
   ],
   "note": "False of the 20 node hexahedron: its Points table has a surplus entry (C30_kronecker_refuted). Proved for every other family (C30_kronecker) and for the table without that entry (C30_kronecker_20)."
  },
  {
   "property": "C31",
   "status": "proved",
   "theorems": [
    "C31_gradient"
   ],
   "note": ""
  },
  {
   "property": "C32",
   "status": "proved",
   "theorems": [
    "C32_completeness",
    "C32_quadratic"
   ],
   "note": ""
  },
  {
   "property": "C33",
   "status": "proved",
   "theorems": [
    "C33_line",
    "C33_square",
    "C33_cube",
    "C33_triangle",
    "C33_tetrahedron"
   ],
   "note": ""
  },
  {
   "property": "C34",
   "status": "proved",
   "theorems": [
    "C34_symmetric_plane",
    "C34_symmetric_selective",
    "C34_symmetric_solid",
    "C34_symmetric_scalar"
   ],
   "note": "Symmetry of plane strain/stress/general-D, selective, solid, scalar and mass matrices; Truss in C43_truss; Wilson-Taylor not covered."
  },
  {
   "property": "C35",
   "status": "proved",
   "theorems": [
    "C35_psd_plane",
    "C35_psd_solid",
    "C35_zero_energy"
   ],
   "note": "Nonnegative energy for plane strain, plane stress and solid; zero energy only for zero strain at the rule points."
  },
  {
   "property": "C36",
   "status": "proved",
   "theorems": [
    "C36_rigid",
    "C36_rigid_solid",
    "C36_constant_temperature"
   ],
   "note": "Rigid motions a + xW, W skew; constant temperature."
  },
  {
   "property": "C37",
   "status": "proved",
   "theorems": [
    "C37_total_mass"
   ],
   "note": "Block sums of the mass matrices equal density times thickness times Area; lumped mass has the same total."
  },
  {
   "property": "C38",
   "status": "partial",
   "theorems": [
    "C38_same_rule",
    "C38_bbar_general_refuted"
   ],
   "note": "SRI and B-bar with one rule equal plane strain; the general-D B-bar claim is refuted."
  },
  {
   "property": "C39",
   "status": "partial",
   "theorems": [
    "C39_forms",
    "C39_consistent",
    "C39_zero",
    "C39_thickness_refuted",
    "C39_potential",
    "C39_rigid"
   ],
   "note": "Tangent consistency and the zero-displacement limit are proved for plane strain and solid (C39_consistent, C39_zero). The clause with equal thickness in both routines is false (C39_thickness_refuted): the total Lagrangian routine ignores its thickness argument."
  },
  {
   "property": "C40",
   "status": "partial",
   "theorems": [
    "C40_forms",
    "C40_derivative",
    "C40_inviscid_partial",
    "C40_refuted"
   ],
   "note": "FlowModel models NavierStokesTangent (NavierStokes.h). C40_forms gives the exact forms of matrix and residual, C40_derivative the true derivative; the matrix contains a spurious viscous term, so consistency is refuted for mu<>0 (C40_refuted, triangle) and proved for mu = 0 (C40_inviscid_partial)."
  },
  {
   "property": "C41",
   "status": "partial",
   "theorems": [
    "C41_form",
    "C41_symmetric",
    "C41_rotation_force",
    "C41_refuted"
   ],
   "note": "C41_form: exact form of StokesStiffness; the exchanged off-diagonal viscous blocks make rigid rotations produce forces (C41_rotation_force on every element, C41_refuted). Symmetry and translations hold (C41_symmetric)."
  },
  {
   "property": "C42",
   "status": "partial",
   "theorems": [
    "C42_energy",
    "C42_single",
    "C42_two_dofs_refuted"
   ],
   "note": "False for two or more listed dofs (C42_two_dofs_refuted): all listed dofs of a node are mapped to one local index, so only the square of their sum is penalised (C42_energy). True for one listed dof (C42_single)."
  },
  {
   "property": "C43",
   "status": "proved",
   "theorems": [
    "C43_truss"
   ],
   "note": "Energy, symmetry, rigid motions, division by zero."
  },
  {
   "property": "C44",
   "status": "proved",
   "theorems": [
    "C44_average",
    "C44_linear"
   ],
   "note": "GetFilteredVariables of the density filter: value, bounds, constants, linearity, for all neighbour lists with positive weight sums."
  },
  {
   "property": "C45",
   "status": "partial",
   "theorems": [
    "C45_gradient",
    "C45_density_partial",
    "C45_density_refuted",
    "C45_heaviside_gradient",
    "C45_heaviside_partial",
    "C45_heaviside_refuted"
   ],
   "note": "C45_gradient and C45_heaviside_gradient give the exact gradient (transposed filter). The routines apply the filter itself instead of its transpose, so the statement holds only when the normalised weights are symmetric (C45_density_partial, C45_heaviside_partial) and is false otherwise (C45_density_refuted, C45_heaviside_refuted: three elements in a row)."
  },
  {
   "property": "C46",
   "status": "proved",
   "theorems": [
    "C46_heaviside"
   ],
   "note": "Complete, for all weights, densities, beta > 0."
  },
  {
   "property": "C47",
   "status": "partial",
   "theorems": [
    "C47_box_partial",
    "C47_refuted"
   ],
   "note": "The code clamps to [0,1] and the move limit but never uses the constructor's xmin, xmax: C47_box_partial is what holds, C47_refuted the counterexample."
  },
  {
   "property": "C48",
   "status": "proved",
   "theorems": [
    "C48_mma",
    "C48_conlin"
   ],
   "note": "C48_mma and C48_conlin: complete model of UpdateVariables with the inner iteration as a fuelled loop; for every amount of fuel the only failure is running out of it, so a call that returns has the stated properties. CONLIN needs positive variables (x = 0 gives 0/0). Termination of the inner loop is not claimed."
  },
  {
   "property": "C49",
   "status": "proved",
   "theorems": [
    "C49_solvels"
   ],
   "note": "C49_solvels: Gaussian elimination with partial pivoting on vectors of rows; both directions (regular: solution, singular: division by zero)."
  },
  {
   "property": "C50",
   "status": "proved",
   "theorems": [
    "C50_nodes",
    "C50_mesh",
    "C50_mesh2",
    "C50_selected"
   ],
   "note": "SquareMesh first and second order: nodes, elements, edges, selections; conforming, counter-clockwise, tiling, boundary edges."
  },
  {
   "property": "C51",
   "status": "partial",
   "theorems": [
    "C51_hole",
    "C51_square",
    "C51_square_second",
    "C51_graded",
    "C51_grand",
    "C51_bad_dof",
    "C51_annulus",
    "C51_square_circle",
    "C51_square_annulus_refuted",
    "C51_square_annulus_partial"
   ],
   "note": "Proved for SquareMesh (both orders), SquareMesh2, GrandStructure2D, AnnulusMesh, SquareCircleAnnulusMesh and SquareAnnulusMesh2. False for SquareAnnulusMesh, which exchanges the inner and outer squares (refuted, with the exact behaviour as _partial)."
  },
  {
   "property": "C52",
   "status": "proved",
   "theorems": [
    "C52_mesh",
    "C52_cells",
    "C52_edges",
    "C52_parity",
    "C52_no_hole"
   ],
   "note": "Conforming, tiles the rectangle minus the hole, cells, outer edges; odd differences are rejected; nv = 0 writes out of bounds."
  },
  {
   "property": "C53",
   "status": "proved",
   "theorems": [
    "C53_bars"
   ],
   "note": "Every pair of nodes at distance at most the limit occurs exactly once; stated on the returned list."
  },
  {
   "property": "C54",
   "status": "partial",
   "theorems": [
    "C54_reimport",
    "C54_import",
    "C54_counts",
    "C54_double",
    "C54_precision_refuted"
   ],
   "note": "Files are lists of characters; numbers are printed and read through a format record, of which double_fmt (six significant digits, integer valued doubles) is an instance. Nodes and elements of every exported file are read back by both importers, and so is every sub-list of the fields asked for in file order, provided each value survives the six digit text format; C54_precision_refuted gives the coordinate 1234567, which does not, so the statement without that proviso is false."
  },
  {
   "property": "C55",
   "status": "partial",
   "theorems": [
    "C55_nodes",
    "C55_elements",
    "C55_conditions",
    "C55_initial",
    "C55_periodic",
    "C55_short_row",
    "C55_missing_refuted"
   ],
   "note": "Files are lists of characters. For files laid out as rows of comma separated fields (also with carriage returns and empty lines) each import returns one record per row, in order. The last clause is false: C55_short_row and C55_missing_refuted show that ImportInitialFromCSV repeats the last value of a short row into the remaining components and ImportPeriodicFromCSV pairs a node with itself."
  },
  {
   "property": "C56",
   "status": "partial",
   "theorems": [
    "C56_lucky_breakdown",
    "C56_lucky_breakdown_refuted"
   ],
   "note": "Property is false of the code (refuted) with the identity matrix; general statement in C56_lucky_breakdown."
  },
  {
   "property": "C57",
   "status": "proved",
   "theorems": [
    "C57_sor_converges"
   ],
   "note": ""
  },
  {
   "property": "C58",
   "status": "partial",
   "theorems": [
    "C58_sor_stops_refuted"
   ],
   "note": "Property is false of the code (refuted); the stopping test divides by the previous component."
  },
  {
   "property": "C59",
   "status": "proved",
   "theorems": [
    "C59_plane",
    "C59_solid",
    "C59_scalar",
    "C59_advection",
    "C59_plane_mass"
   ],
   "note": "Bilinear form of the result = quadrature of the weak form."
  },
  {
   "property": "C60",
   "status": "proved",
   "theorems": [
    "C60_measure",
    "C60_shoelace"
   ],
   "note": "Area/Volume as quadrature, shoelace."
  },
  {
   "property": "C61",
   "status": "proved",
   "theorems": [
    "C61_form",
    "C61_viscous"
   ],
   "note": "Forms, symmetry, kernel and positivity for all shapes, rules and geometries."
  },
  {
   "property": "C62",
   "status": "proved",
   "theorems": [
    "C62_residual"
   ],
   "note": "Entrywise identity between the Newton residual and the Picard system."
  },
  {
   "property": "C63",
   "status": "proved",
   "theorems": [
    "C63_adjoint"
   ],
   "note": "Adjoint = transpose of the true derivative (a limit of the returned residuals), with pressure sign flipped."
  },
  {
   "property": "C64",
   "status": "proved",
   "theorems": [
    "C64_continuity",
    "C64_stabilised"
   ],
   "note": "Skewness; SUPG/PSPG forms whenever the calls return, with the common tau."
  },
  {
   "property": "C65",
   "status": "proved",
   "theorems": [
    "C65_mass",
    "C65_brinkman",
    "C65_decoupled"
   ],
   "note": "Masses and drag."
  },
  {
   "property": "C66",
   "status": "proved",
   "theorems": [
    "C66_body_force"
   ],
   "note": "Body force."
  },
  {
   "property": "C67",
   "status": "proved",
   "theorems": [
    "C67_poisson",
    "C67_velocity"
   ],
   "note": "Decoupled routines: forms of all three steps."
  },
  {
   "property": "C68",
   "status": "proved",
   "theorems": [
    "C68_sigmund",
    "C68_borrvall"
   ],
   "note": "Both sensitivity filters."
  },
  {
   "property": "C69",
   "status": "partial",
   "theorems": [
    "C69_bracket_partial",
    "C69_refuted",
    "C69_terminates",
    "C69_optimal_fixed"
   ],
   "note": "Bracketing invariant at exit, termination and fixed point are proved; feasibility of the returned design is false (C69_refuted), because the last candidate computed need not belong to the feasible end."
  },
  {
   "property": "C70",
   "status": "partial",
   "theorems": [
    "C70_convergence_partial",
    "C70_negative",
    "C70_refuted"
   ],
   "note": "Holds for positive sums (C70_convergence_partial); for negative sums the test is always true (C70_negative, C70_refuted)."
  },
  {
   "property": "C71",
   "status": "proved",
   "theorems": [
    "C71_mma_kkt",
    "C71_conlin_kkt"
   ],
   "note": "The residuals, the point and the subproblem are defined in MMASpec.v without reference to the code's KKTNorm."
  },
  {
   "property": "C72",
   "status": "proved",
   "theorems": [
    "C72_mma_first_order",
    "C72_conlin_first_order",
    "C72_mma_convex",
    "C72_conlin_convex"
   ],
   "note": "Four theorems: values and derivatives, and convexity, for MMA and CONLIN."
  },
  {
   "property": "C73",
   "status": "proved",
   "theorems": [
    "C73_mma_near_optimal",
    "C73_conlin_near_optimal"
   ],
   "note": "Follows from the residual bounds of C71 and convexity by Lagrangian duality; the multipliers are existentially quantified."
  },
  {
   "property": "C74",
   "status": "partial",
   "theorems": [
    "C74_mma_newton_partial",
    "C74_conlin_newton_partial",
    "C74_mma_newton_refuted",
    "C74_conlin_newton_refuted"
   ],
   "note": "Proved when n > m, n = 1 or a = 0; missing: n <= m with n >= 2 and a <> 0, where it is refuted: MMA.h:301-305 adds the a^2/D terms of the last diagonal entry once per variable."
  },
  {
   "property": "C75",
   "status": "proved",
   "theorems": [
    "C75_asymptotes"
   ],
   "note": "The rule is asymptote_rule in MMASpec.v."
  },
  {
   "property": "C76",
   "status": "proved",
   "theorems": [
    "C76_graded_mesh",
    "C76_grading",
    "C76_ratio_one"
   ],
   "note": "Conforming, tiling, grading, and the division by zero at ratio 1."
  },
  {
   "property": "C77",
   "status": "proved",
   "theorems": [
    "C77_annulus",
    "C77_square_annulus",
    "C77_square_circle"
   ],
   "note": "Conforming, boundary, positive areas and total area; AnnulusMesh, SquareAnnulusMesh, SquareCircleAnnulusMesh."
  },
  {
   "property": "C78",
   "status": "proved",
   "theorems": [
    "C78_bicgstab_step",
    "C78_bicgstab2_step"
   ],
   "note": "every iteration of the four solvers: shadow orthogonality, minimal residual over the stabilising polynomial, conjugacy of the next direction"
  },
  {
   "property": "C79",
   "status": "proved",
   "theorems": [
    "C79_bicgstab_terminates",
    "C79_breakdown"
   ],
   "note": "exact arithmetic; finite termination through biorthogonality of the underlying BiCG sequences; breakdown on a nonsingular 2x2 matrix shown"
  },
  {
   "property": "C80",
   "status": "partial",
   "theorems": [
    "C80_order",
    "C80_order_refuted"
   ],
   "note": "False: C80_order shows that for every mesh ImportPOINTS after ImportCELLS returns an empty list (and rewinds the file, so that asking again works)."
  },
  {
   "property": "C81",
   "status": "proved",
   "theorems": [
    "C81_potential",
    "C81_consistent",
    "C81_symmetric",
    "C81_zero",
    "C81_rigid",
    "C81_inverted"
   ],
   "note": "plane strain ignores the thickness argument, as stated; a displacement with J <= 0 at a Gauss point has no finite result (C81_inverted)"
  },
  {
   "property": "C82",
   "status": "proved",
   "theorems": [
    "C82_surface_force",
    "C82_body_force",
    "C82_uniform_edge",
    "C82_surface_flux",
    "C82_reaction",
    "C82_stokes_surface_force"
   ],
   "note": ""
  },
  {
   "property": "C83",
   "status": "partial",
   "theorems": [
    "C83_pressure",
    "C83_resultant",
    "C83_boundary",
    "C83_consistent_refuted"
   ],
   "note": "Refuted for a single element: the matrix is minus the symmetric part of the derivative of the load (C83_pressure); it differs from the derivative by an end-point term that cancels along closed chains and at fixed ends (C83_boundary). The load itself and its resultant are as stated."
  },
  {
   "property": "C84",
   "status": "proved",
   "theorems": [
    "C84_body_force",
    "C84_constitutive",
    "C84_check",
    "C84_uniform",
    "C84_energy",
    "C84_effective"
   ],
   "note": ""
  },
  {
   "property": "C85",
   "status": "proved",
   "theorems": [
    "C85_forms",
    "C85_parameter",
    "C85_dissipative",
    "C85_constants",
    "C85_zero_velocity"
   ],
   "note": ""
  },
  {
   "property": "C86",
   "status": "proved",
   "theorems": [
    "C86_defined",
    "C86_points",
    "C86_condensed",
    "C86_energy",
    "C86_rigid",
    "C86_null",
    "C86_patch",
    "C86_plane_strain",
    "C86_bending"
   ],
   "note": ""
  },
  {
   "property": "C87",
   "status": "proved",
   "theorems": [
    "C87_mma_line_search",
    "C87_conlin_line_search",
    "C87_newton_descent"
   ],
   "note": ""
  },
  {
   "property": "C88",
   "status": "partial",
   "theorems": [
    "C88_sign_count",
    "C88_bisection",
    "C88_bisection_zero_refuted",
    "C88_bisection_decoupled_refuted"
   ],
   "note": "Proved for tridiagonal matrices with nonzero off-diagonal entries (C88_sign_count, C88_bisection). False otherwise: with all entries zero the function returns an uninitialised variable (C88_bisection_zero_refuted), and with a zero off-diagonal entry the sign count can miss eigenvalues (C88_bisection_decoupled_refuted)."
  },
  {
   "property": "C89",
   "status": "proved",
   "theorems": [
    "C89_inverse_power"
   ],
   "note": ""
  },
  {
   "property": "C90",
   "status": "partial",
   "theorems": [
    "C90_process",
    "C90_lanczos",
    "C90_lanczos_full",
    "C90_zero_diagonal_refuted",
    "C90_breakdown_refuted"
   ],
   "note": "C90_process, C90_lanczos and C90_lanczos_full describe every run that returns. The claim that every symmetric matrix is handled is false: the starting vector is the diagonal, so a zero diagonal divides by zero (C90_zero_diagonal_refuted), and so does an invariant subspace of lower dimension (C90_breakdown_refuted)."
  },
  {
   "property": "C91",
   "status": "proved",
   "theorems": [
    "C91_restart_lanczos"
   ],
   "note": ""
  },
  {
   "property": "C92",
   "status": "proved",
   "theorems": [
    "C92_shift",
    "C92_shifted_invert"
   ],
   "note": ""
  },
  {
   "property": "C93",
   "status": "partial",
   "theorems": [
    "C93_general_refuted"
   ],
   "note": "False of the code: the starting vector is normalised in the Euclidean norm instead of the norm of B; C93_general_refuted gives a 1 x 1 pair with eigenvalue 1/4 for which both functions return 1/16."
  },
  {
   "property": "C94",
   "status": "proved",
   "theorems": [
    "C94_lagrange_basis",
    "C94_lagrange_derivative",
    "C94_repeated_point"
   ],
   "note": ""
  },
  {
   "property": "C95",
   "status": "proved",
   "theorems": [
    "C95_nodal_mean",
    "C95_nodal_bounds",
    "C95_nodal_vector",
    "C95_isolated_node",
    "C95_elemental_mean",
    "C95_center_of_gravity"
   ],
   "note": ""
  },
  {
   "property": "C96",
   "status": "partial",
   "theorems": [
    "C96_line_integral",
    "C96_curves_in_the_plane_refuted"
   ],
   "note": "The quadrature formula is proved for nodes with one coordinate (C96_line_integral). For curves in the plane or in space every call fails an assertion (C96_curves_in_the_plane_refuted, general first part and witness)."
  },
  {
   "property": "C97",
   "status": "proved",
   "theorems": [
    "C97_beam_form",
    "C97_beam_definite",
    "C97_beam_rigid",
    "C97_straight_beam"
   ],
   "note": ""
  },
  {
   "property": "C98",
   "status": "proved",
   "theorems": [
    "C98_shell_form",
    "C98_shell_definite",
    "C98_shell_rigid",
    "C98_drilling",
    "C98_same_energy",
    "C98_flat_shell",
    "C98_flat_membrane"
   ],
   "note": ""
  },
  {
   "property": "C99",
   "status": "proved",
   "theorems": [
    "C99_inouton",
    "C99_minus_not_beyond"
   ],
   "note": ""
  },
  {
   "property": "C100",
   "status": "proved",
   "theorems": [
    "C100_refine",
    "C100_insert_inside",
    "C100_forced_swap_turns_over"
   ],
   "note": ""
  },
  {
   "property": "C101",
   "status": "proved",
   "theorems": [
    "C101_smoothing",
    "C101_half_plane",
    "C101_repeated",
    "C101_turns_over"
   ],
   "note": ""
  },
  {
   "property": "C102",
   "status": "proved",
   "theorems": [
    "C102_sortelement",
    "C102_mutual",
    "C102_sortnode"
   ],
   "note": ""
  },
  {
   "property": "C103",
   "status": "proved",
   "theorems": [
    "C103_roughmesh",
    "C103_direction",
    "C103_constructor",
    "C103_no_elements",
    "C103_rounds",
    "C103_nonpositive",
    "C103_whole"
   ],
   "note": ""
  },
  {
   "property": "C104",
   "status": "proved",
   "theorems": [
    "C104_outputs",
    "C104_shoelace",
    "C104_closed",
    "C104_fixedlist"
   ],
   "note": ""
  },
  {
   "property": "C105",
   "status": "proved",
   "theorems": [
    "C105_rules",
    "C105_runs",
    "C105_patch",
    "C105_solution",
    "C105_square",
    "C105_delaunay"
   ],
   "note": ""
  },
  {
   "property": "C106",
   "status": "proved",
   "theorems": [
    "C106_rules",
    "C106_runs",
    "C106_definite",
    "C106_solve",
    "C106_patch",
    "C106_hourglass"
   ],
   "note": ""
  },
  {
   "property": "C107",
   "status": "proved",
   "theorems": [
    "C107_elements",
    "C107_step",
    "C107_solvers",
    "C107_runs",
    "C107_steady",
    "C107_contract",
    "C107_heat",
    "C107_half"
   ],
   "note": ""
  },
  {
   "property": "C108",
   "status": "proved",
   "theorems": [
    "C108_analysis",
    "C108_balance",
    "C108_sensitivity",
    "C108_gradient",
    "C108_monotone",
    "C108_solver",
    "C108_weight"
   ],
   "note": ""
  },
  {
   "property": "C109",
   "status": "proved",
   "theorems": [
    "C109_problem",
    "C109_neighbors",
    "C109_pass",
    "C109_run",
    "C109_sample",
    "C109_update_ends",
    "C109_inactive"
   ],
   "note": ""
  },
  {
   "property": "C110",
   "status": "proved",
   "theorems": [
    "C110_gradient",
    "C110_not_gradient"
   ],
   "note": ""
  },
  {
   "property": "C111",
   "status": "proved",
   "theorems": [
    "C111_alternative",
    "C111_trace",
    "C111_converges",
    "C111_inconsistent"
   ],
   "note": ""
  },
  {
   "property": "C112",
   "status": "proved",
   "theorems": [
    "C112_system",
    "C112_run",
    "C112_bounds",
    "C112_unique",
    "C112_springs",
    "C112_singular",
    "C112_scaling_cg",
    "C112_solver"
   ],
   "note": ""
  },
  {
   "property": "C113",
   "status": "proved",
   "theorems": [
    "C113_system",
    "C113_analysis",
    "C113_sensitivity",
    "C113_convex",
    "C113_weight",
    "C113_optimal",
    "C113_fixed_point",
    "C113_run",
    "C113_update_ends",
    "C113_sample"
   ],
   "note": ""
  },
  {
   "property": "C114",
   "status": "proved",
   "theorems": [
    "C114_design",
    "C114_determinate",
    "C114_overstress"
   ],
   "note": ""
  },
  {
   "property": "C115",
   "status": "proved",
   "theorems": [
    "C115_constants",
    "C115_analysis",
    "C115_faults",
    "C115_stop",
    "C115_update",
    "C115_schedule",
    "C115_run",
    "C115_scale",
    "C115_sample"
   ],
   "note": ""
  },
  {
   "property": "C116",
   "status": "proved",
   "theorems": [
    "C116_run",
    "C116_least",
    "C116_reaction",
    "C116_sample"
   ],
   "note": ""
  },
  {
   "property": "C117",
   "status": "proved",
   "theorems": [
    "C117_run",
    "C117_equilibrium",
    "C117_idle",
    "C117_total",
    "C117_step",
    "C117_tangent",
    "C117_small",
    "C117_prescribed"
   ],
   "note": ""
  },
  {
   "property": "C118",
   "status": "proved",
   "theorems": [
    "C118_run",
    "C118_brick",
    "C118_stable",
    "C118_profile",
    "C118_scale",
    "C118_reciprocal",
    "C118_least"
   ],
   "note": "The solver is a parameter that returns the exact solution of symmetric positive definite systems (conjugate gradients until the residual is zero is one, C108_solver); the stopping tolerance 1e-10 of the samples is not modelled here. A node counts as prescribed when all its components are. The solid sample's Element.csv and Node.csv describe unit cubes (read off as text, not part of the proof); general eight node elements with curved edges are outside C118_brick."
  },
  {
   "property": "C119",
   "status": "proved",
   "theorems": [
    "C119_run",
    "C119_least",
    "C119_cantilever",
    "C119_tip",
    "C119_reciprocal"
   ],
   "note": "the solver is a parameter that is right on symmetric positive definite systems; exact reals; import and export of files not modelled"
  },
  {
   "property": "C120",
   "status": "proved",
   "theorems": [
    "C120_run",
    "C120_crosswind",
    "C120_constant",
    "C120_superpose",
    "C120_turned",
    "C120_similar",
    "C120_still_air"
   ],
   "note": "the solver is a parameter that is right on positive definite systems; that BiCGSTAB does not break down is not claimed; exact reals; import and export of files not modelled; the files of the sample (800 counterclockwise triangles, 40 prescribed sides, 40 sides of outflow) meet the hypotheses, as a script reading them as text found, which is not part of the proof"
  }
 ]
}