{"id": "C01", "title": "Time and cycle agree with the step history", "statement": "After any sequence of accepted advanceTimestep(dt) and reverseAdjointTimestep() calls on a physics module created at cycle 0, cycle() is the number of forward minus the number of backward steps, and time() is the initial time plus the sum of the first cycle() forward time steps; a backward step at the starting cycle is refused and changes nothing.", "quantifier": "every finite sequence of forward and backward steps with arbitrary time step sizes", "why_tests_cant": "A test runs one schedule of a handful of steps; the claim is about all interleavings and lengths.", "anchors": ["src/serac/physics/base_physics.cpp: initializeBasePhysicsStates, getCheckpointedTimestep", "src/serac/physics/heat_transfer.hpp: advanceTimestep, reverseAdjointTimestep", "src/serac/physics/solid_mechanics.hpp: advanceTimestep, reverseAdjointTimestep"]}
{"id": "C02", "title": "A checkpoint returns the state that was current at that cycle", "statement": "After any forward run from cycle 0, loadCheckpointedState(name, k) returns, for every k up to the current cycle, the field as it stood at the end of cycle k (k = 0: the initial state, including edits made through setState), and asks for other cycles or unknown names are refused.", "quantifier": "all forward runs, all cycles k, all state names, all state edits made through setState", "why_tests_cant": "The number of cycles, order of queries and edits is unbounded.", "anchors": ["src/serac/physics/base_physics.cpp: loadCheckpointedState, getCheckpointedStates", "src/serac/physics/heat_transfer.hpp: setState, advanceTimestep", "src/serac/physics/solid_mechanics.hpp: setState, advanceTimestep, initializeSolidMechanicsStates"]}
{"id": "C03", "title": "Checkpoints on disk and in memory give the same answers", "statement": "Switching checkpoint_to_disk on or off does not change what loadCheckpointedState or getCheckpointedStates returns, whatever the order of queries, resets and re-runs.", "quantifier": "every history of steps, resets and checkpoint queries", "why_tests_cant": "The disk path keeps a one-entry cache keyed by cycle; only particular orders of queries and resets expose a stale entry.", "anchors": ["src/serac/physics/base_physics.cpp: loadCheckpointedState, getCheckpointedStates", "src/serac/physics/base_physics.hpp: cached_checkpoint_cycle_, cached_checkpoint_states_"]}
{"id": "C04", "title": "Start cycle does not matter", "statement": "A module constructed at start cycle c > 0 (restart) records and returns the same checkpoints and time steps as one started at 0, shifted by c.", "quantifier": "every start cycle and every run", "why_tests_cant": "Tests start at cycle 0.", "anchors": ["src/serac/physics/base_physics.cpp: initializeBasePhysicsStates, getCheckpointedTimestep", "src/serac/physics/base_physics.hpp: min_cycle_, max_cycle_, timesteps_, checkpoint_states_"]}
{"id": "C05", "title": "Reset makes a run repeatable", "statement": "After resetStates(), issuing the same sequence of calls as before gives the same times, cycles, checkpoints and adjoint queries as the first run, whatever happened in between.", "quantifier": "every first history, every second history", "why_tests_cant": "Needs all histories before the reset; tests reset after one specific run.", "anchors": ["src/serac/physics/base_physics.cpp: initializeBasePhysicsStates", "src/serac/physics/solid_mechanics.hpp: resetStates", "src/serac/physics/heat_transfer.hpp: resetStates"]}
{"id": "C06", "title": "Field-name prefixes are reversible", "statement": "Names made by adding a physics-module prefix are recovered exactly by removing it, distinct (prefix, name) inputs of one module never collide, and a parameter looked up under a name returns the parameter registered under that name.", "quantifier": "all prefixes and names (strings)", "why_tests_cant": "String content is unbounded; empty prefixes and names that contain the separator matter.", "anchors": ["src/serac/physics/base_physics.cpp: detail::addPrefix, detail::removePrefix", "src/serac/physics/base_physics.hpp: parameter, parameterNames"]}
{"id": "C07", "title": "Domain set algebra is set algebra", "statement": "For domains over one mesh, |, & and - hold exactly the elements in the union, intersection and difference, per geometry, sorted and without duplicates, and the result has the same kind (elements / boundary elements) so that it can be used in the same integrals.", "quantifier": "all pairs of domains", "why_tests_cant": "All element sets; also nesting of operators.", "anchors": ["src/serac/numerics/functional/domain.cpp: operator|, operator&, operator-, set_operation", "src/serac/numerics/functional/domain.hpp: Domain"]}
{"id": "C08", "title": "A domain made from a predicate has exactly the entities that satisfy it", "statement": "Domain::ofVertices/ofEdges/ofFaces/ofElements/ofBoundaryElements contain an entity exactly once if and only if the user predicate accepts its vertex coordinates and attribute, where a boundary entity's attribute is its true boundary attribute.", "quantifier": "all meshes (entity lists) and predicates", "why_tests_cant": "Any mesh numbering, including a boundary entity with index 0.", "anchors": ["src/serac/numerics/functional/domain.cpp: domain_of_vertices, domain_of_edges, domain_of_faces, domain_of_elems, domain_of_boundary_elems", "src/serac/numerics/functional/domain.hpp"]}
{"id": "C09", "title": "Essential conditions cover exactly the requested degrees of freedom", "statement": "After any sequence of addEssential calls allEssentialTrueDofs() is the sorted duplicate-free union of the true dofs of every accepted condition, and no request is silently dropped.", "quantifier": "every sequence of essential boundary condition requests", "why_tests_cant": "Order and overlap of conditions are unbounded.", "anchors": ["src/serac/physics/boundary_conditions/boundary_condition_manager.cpp: addEssential, updateAllDofs", "src/serac/physics/boundary_conditions/boundary_condition_manager.hpp"]}
{"id": "C10", "title": "Dof records keep index, sign and orientation", "statement": "Packing an index, sign and orientation into a DoF record and reading them back returns the same three values, and vector-dof numbering built from it is a bijection between (node, component) pairs and [0, nodes*components) in both orderings.", "quantifier": "all indices below 2^48, signs, orientations, node counts and component counts", "why_tests_cant": "64-bit values; unit tests use H1 meshes in which sign and orientation are always 0.", "anchors": ["src/serac/numerics/functional/element_restriction.hpp: DoF", "src/serac/numerics/functional/element_restriction.cpp: ElementRestriction::GetVDof"]}
{"id": "C11", "title": "Lexicographic node ids enumerate each reference element", "statement": "For every order p, the node numbering formulas for triangles, tetrahedra, squares and cubes map the lattice points of the element one-to-one onto 0..ndof-1, in lexicographic order, and the per-face node lists contain exactly the lattice points on that face.", "quantifier": "all polynomial orders p >= 0 and all lattice points", "why_tests_cant": "The code is instantiated for p <= 3 in tests; the formulas are polynomial in p.", "anchors": ["src/serac/numerics/functional/element_restriction.cpp: geom_local_face_dofs, face_permutations"]}
{"id": "C12", "title": "Gather and scatter are adjoint", "statement": "For every element restriction, <Gather(u), e> = <u, ScatterAdd(e)>: scatter-add is the exact transpose of gather and accumulates onto its output; block offsets of the geometries partition the element vector.", "quantifier": "all dof tables, all vectors", "why_tests_cant": "All meshes and vectors.", "anchors": ["src/serac/numerics/functional/element_restriction.cpp: ElementRestriction::Gather, ScatterAdd, BlockElementRestriction::bOffsets"]}
{"id": "C13", "title": "The sparsity lookup table is a valid CSR pattern", "statement": "For every pair of test and trial restrictions the table built for gradient assembly has monotone row offsets from 0 to nnz, strictly increasing columns in each row, contains exactly the (row, column) pairs coupled by some element, and maps each to its position.", "quantifier": "all element dof tables", "why_tests_cant": "All meshes; rows without entries at the start, middle or end.", "anchors": ["src/serac/numerics/functional/dof_numbering.hpp: GradientAssemblyLookupTables::init, operator()"]}
{"id": "C14", "title": "Assembled gradient and matrix-free gradient agree", "statement": "For any functional, any linearisation point and any direction dx, multiplying the assembled sparse matrix by dx gives the same vector as applying the gradient object to dx; for scalar quantities of interest the assembled vector dotted with dx equals the action.", "quantifier": "all element matrices, dof tables, directions and sets of integrals", "why_tests_cant": "All meshes and integrands.", "anchors": ["src/serac/numerics/functional/functional.hpp: Gradient::assemble, ActionOfGradient", "src/serac/numerics/functional/functional_qoi.inl: Gradient::assemble, ActionOfGradient"]}
{"id": "C15", "title": "Dual numbers compute exact derivatives", "statement": "Evaluating any composition of the supported dual-number operations with a seeded input returns the value of the composition and its exact derivative at every point where each operation is differentiable.", "quantifier": "all expressions built from the supported operations and all points of differentiability", "why_tests_cant": "Expressions are unbounded; tests use finite differences at a few points.", "anchors": ["src/serac/numerics/functional/dual.hpp", "src/serac/numerics/functional/tuple_tensor_dual_functions.hpp"]}
{"id": "C16", "title": "Functional gradients are the derivative of the residual", "statement": "The gradient returned by evaluating a functional with differentiate_wrt on argument i, applied to dx, is the directional derivative of the residual in argument i at the point of that evaluation, summed over all integrals that depend on that argument, and later evaluations without differentiation do not change it.", "quantifier": "all integrands differentiable at the quadrature points, all meshes, histories of evaluations", "why_tests_cant": "Finite-difference tests cannot cover all q-functions, meshes and call histories.", "anchors": ["src/serac/numerics/functional/functional.hpp: operator(), ActionOfGradient", "src/serac/numerics/functional/integral.hpp: Integral::Mult, GradientMult", "src/serac/numerics/functional/domain_integral_kernels.hpp"]}
{"id": "C17", "title": "Material history only changes on request", "statement": "Evaluating a functional leaves quadrature-point state unchanged unless updateQdata(true) is in force; with it, each evaluated point's state becomes what the material returned and no other point's state changes, so repeated trial evaluations during a solve are free of side effects.", "quantifier": "all sequences of evaluations and flag changes, all materials", "why_tests_cant": "Unbounded sequences of nonlinear iterations.", "anchors": ["src/serac/numerics/functional/domain_integral_kernels.hpp: batch_apply_qf", "src/serac/numerics/functional/functional.hpp: updateQdata", "src/serac/numerics/functional/quadrature_data.hpp"]}
{"id": "C18", "title": "Small-tensor inverse and determinant", "statement": "For 2x2 and 3x3 matrices inv(A) is a two-sided inverse whenever det(A) is nonzero, det is multiplicative and detApIm1(A) equals det(A + I) - 1.", "quantifier": "all real matrices", "why_tests_cant": "Continuum of inputs.", "anchors": ["src/serac/numerics/functional/tensor.hpp: inv, det, detApIm1"]}
{"id": "C19", "title": "Small linear solves", "statement": "linear_solve(A, b) returns x with A x = b for every invertible n x n matrix A.", "quantifier": "all n, all invertible matrices and right-hand sides", "why_tests_cant": "Only some pivot patterns break it.", "anchors": ["src/serac/numerics/functional/tensor.hpp: factorize_lu, linear_solve, solve_lower_triangular, solve_upper_triangular"]}
{"id": "C20", "title": "Tensor decompositions", "statement": "sym + antisym, and deviatoric + spherical parts, reconstruct the tensor; the parts are orthogonal, dev is traceless, and isotropic rank-4 tensors applied to a matrix agree with the explicit index contraction.", "quantifier": "all square matrices, any dimension", "why_tests_cant": "Continuum of inputs, any n.", "anchors": ["src/serac/numerics/functional/tensor.hpp: sym, antisym, dev, tr, double_dot", "src/serac/numerics/functional/isotropic_tensor.hpp: double_dot"]}
{"id": "C21", "title": "Scalar equation solves are safe and differentiable", "statement": "solve_scalar_equation with a bracketing interval returns a point of the interval, keeps a sign change inside its bracket, and when it reports convergence the residual or bracket tolerance is met; the derivative it returns is the one of the implicit function theorem; it refuses intervals without a sign change.", "quantifier": "all continuous functions, brackets, guesses and iteration limits", "why_tests_cant": "All functions.", "anchors": ["src/serac/numerics/functional/tuple_tensor_dual_functions.hpp: solve_scalar_equation"]}
{"id": "C22", "title": "Hyperelastic stresses derive from energies", "statement": "The stress of the elastic models (linear isotropic, St. Venant-Kirchhoff, neo-Hookean, Green-Saint-Venant thermoelastic) is the derivative of a stored energy, vanishes at zero displacement gradient, is unchanged in the appropriate sense under superposed rotation where the model is finite-strain, and Kirchhoff/Cauchy stresses are symmetric.", "quantifier": "all displacement gradients with positive determinant, all moduli", "why_tests_cant": "Continuum of inputs.", "anchors": ["src/serac/physics/materials/solid_material.hpp", "src/serac/physics/materials/green_saint_venant_thermoelastic.hpp"]}
{"id": "C23", "title": "Plastic return mapping is consistent", "statement": "The J2 small-strain update leaves the state alone for an elastic trial; otherwise it lands on the yield surface within the solver tolerance, keeps plastic strain traceless and symmetric, never decreases accumulated plastic strain, always has a bracketed scalar problem for non-decreasing hardening, and repeating the call at the same displacement gradient is elastic.", "quantifier": "all displacement gradients, all states reachable from zero, all admissible parameters and hardening laws", "why_tests_cant": "All load histories.", "anchors": ["src/serac/physics/materials/solid_material.hpp: J2SmallStrain, LinearHardening, PowerLawHardening, VoceHardening"]}
{"id": "C24", "title": "Newmark forward step", "statement": "One implicit step of the default second-order integrator satisfies the equation of motion at the end of the step for unconstrained dofs and the Newmark kinematic relations; constrained dofs follow the prescribed motion according to the chosen enforcement method.", "quantifier": "all systems, step sizes, states and enforcement methods", "why_tests_cant": "All states and constraint sets.", "anchors": ["src/serac/numerics/odes.cpp: SecondOrderODE::Solve, Step, ImplicitSolve", "src/serac/physics/solid_mechanics.hpp: completeSetup"]}
{"id": "C25", "title": "Transient adjoint gives exact gradients for structural dynamics", "statement": "The load-accumulating backward recursion over any number of Newmark steps returns the exact gradient of the objective w.r.t. initial conditions, for objectives that depend on displacement, velocity and acceleration.", "quantifier": "all numbers of steps, step sizes, linear(ised) systems and objective gradients", "why_tests_cant": "Any number of steps; tests use displacement-only objectives.", "anchors": ["src/serac/physics/solid_mechanics.cpp: adjoint_integrate", "src/serac/physics/solid_mechanics.hpp: reverseAdjointTimestep, setAdjointLoad"]}
{"id": "C26", "title": "Transient adjoint gives exact gradients for heat transfer", "statement": "The backward recursion over any number of backward-Euler steps returns the exact gradient of the objective with respect to initial temperature and parameters for objectives that depend on temperature and its rate.", "quantifier": "all numbers of steps, step sizes, linear(ised) systems and objective gradients", "why_tests_cant": "Any number of steps.", "anchors": ["src/serac/physics/heat_transfer.hpp: reverseAdjointTimestep, computeTimestepSensitivity, computeInitialConditionSensitivity"]}
{"id": "C27", "title": "Static adjoint sensitivities", "statement": "For quasi-static solves, with J^T lambda = -(dQ/du) on free dofs and zero adjoint on constrained dofs, the parameter sensitivity returned equals dQ/dp of the implicitly defined solution.", "quantifier": "all residuals with invertible reduced Jacobian, all objectives and constraints", "why_tests_cant": "All problems.", "anchors": ["src/serac/physics/solid_mechanics.hpp: quasiStaticAdjointSolve, computeTimestepSensitivity", "src/serac/physics/heat_transfer.hpp: reverseAdjointTimestep"]}
{"id": "C28", "title": "Nonlinear solver status can be trusted", "statement": "When the Newton / line-search or trust-region solver reports convergence, the residual at the returned point is at most max(rel_tol * initial residual, abs_tol) and the minimum iteration count was honoured; otherwise it reports failure; iteration and residual-evaluation counts respect the configured limits.", "quantifier": "all residual operators (including ones that throw or return NaN), Jacobian solves and options", "why_tests_cant": "All operators and failure points.", "anchors": ["src/serac/numerics/equation_solver.cpp: NewtonSolver::Mult, TrustRegion::Mult"]}
{"id": "C29", "title": "Line search accepts only improvements or its documented fallback", "statement": "Each line-search step ends at a point whose residual norm is strictly below the previous one, or at the fallback step after 2*max_line_search_iterations+1 cut-backs; with zero line-search iterations the step is the full Newton step, and for affine residuals with exact linear solves Newton converges in one step.", "quantifier": "all residual operators, directions and limits", "why_tests_cant": "All operators.", "anchors": ["src/serac/numerics/equation_solver.cpp: NewtonSolver::Mult"]}
{"id": "C30", "title": "Trust-region steps stay inside the trust region", "statement": "The step returned by the Steihaug conjugate-gradient solve and by the dogleg combination has norm at most the trust-region size, for any Hessian and preconditioner, boundary projections have exactly that norm, and an accepted step meets the residual goal or does not increase the work estimate.", "quantifier": "all Hessian/preconditioner operators, residuals, sizes and iteration limits", "why_tests_cant": "All operators.", "anchors": ["src/serac/numerics/equation_solver.cpp: projectToBoundaryWithCoefs, projectToBoundaryBetweenWithCoefs, doglegStep, solveTrustRegionModelProblem"]}
{"id": "C31", "title": "Contact pressures are split and merged without loss", "statement": "Merged pressure/gap vectors are the concatenation of the per-interaction vectors, splitting what was merged gives back each interaction's pressures (with inactive ones zeroed), offsets partition the merged vector, and the active-set rule marks a dof inactive exactly when it is separated and unpressurised.", "quantifier": "any number and mix of interactions and dof counts", "why_tests_cant": "Any number of interactions.", "anchors": ["src/serac/physics/contact/contact_data.cpp: mergedPressures, setPressures, updateDofOffsets", "src/serac/physics/contact/contact_interaction.cpp: inactiveDofs"]}
{"id": "C32", "title": "Quadrature rules integrate polynomials", "statement": "Gauss rules on segments, triangles and tetrahedra (and their tensor products) have positive weights, points inside the element, and integrate every polynomial up to the rule's degree to within the rounding of the tabulated constants.", "quantifier": "all polynomials up to the degree, every tabulated rule", "why_tests_cant": "All polynomials.", "anchors": ["src/serac/numerics/functional/polynomials.hpp: GaussLegendreNodes, GaussLegendreWeights", "src/serac/numerics/functional/quadrature.hpp", "src/serac/numerics/functional/geometry.hpp: num_quadrature_points"]}
{"id": "C33", "title": "Shape functions interpolate", "statement": "For segments, quads, hexes, triangles and tets at orders 1-3 the shape functions sum to one, are 1 at their own node and 0 at the others, reproduce polynomials of that order, and the coded gradients are their exact derivatives.", "quantifier": "all points of the reference element, all nodal values", "why_tests_cant": "Continuum of points.", "anchors": ["src/serac/numerics/functional/polynomials.hpp: GaussLobattoInterpolation, GaussLobattoInterpolationDerivative", "src/serac/numerics/functional/detail/triangle_H1.inl", "src/serac/numerics/functional/detail/tetrahedron_H1.inl", "src/serac/numerics/functional/detail/quadrilateral_H1.inl", "src/serac/numerics/functional/detail/hexahedron_H1.inl"]}
{"id": "C34", "title": "Sum-factorised kernels equal the direct sums", "statement": "Interpolation and integration on quads and hexes by successive 1D contractions give the same values as the tensor-product shape functions evaluated directly, and integration is the weighted transpose of interpolation.", "quantifier": "all nodal data, all 1D tables of any size", "why_tests_cant": "All data.", "anchors": ["src/serac/numerics/functional/detail/quadrilateral_H1.inl: interpolate, integrate", "src/serac/numerics/functional/detail/hexahedron_H1.inl: interpolate, integrate", "src/serac/numerics/functional/tensor.hpp: contract"]}
{"id": "C35", "title": "Shape displacement equals moving the mesh", "statement": "A shape-aware functional at shape displacement p gives the same result as the plain functional on the mesh moved by p, for H1, L2 and H(curl) fields, domain and boundary integrals.", "quantifier": "all invertible shape gradients and all integrands", "why_tests_cant": "Continuum of shapes.", "anchors": ["src/serac/numerics/functional/shape_aware_functional.hpp: ShapeCorrection, compute_boundary_area_correction", "src/serac/numerics/functional/finite_element.hpp: parent_to_physical, physical_to_parent"]}
{"id": "C36", "title": "State manager names and restart", "statement": "Every field stored under a name is retrieved by that name and mesh, storing a second field under a used name is refused, and saving then reloading a cycle restores every stored field's values.", "quantifier": "all sequences of store, update, save and load operations", "why_tests_cant": "All histories and crash points between save and load.", "anchors": ["src/serac/physics/state/state_manager.cpp", "src/serac/physics/state/state_manager.hpp"]}
{"id": "C37", "title": "Copies and moves of fields carry their data", "statement": "Copy and move construction and assignment of finite element states and duals leave the destination with the source's name, space and values.", "quantifier": "all source and destination objects", "why_tests_cant": "All object histories.", "anchors": ["src/serac/physics/state/finite_element_state.hpp", "src/serac/physics/state/finite_element_dual.hpp", "src/serac/physics/state/finite_element_vector.hpp"]}
{"id": "C38", "title": "Two-way variant tracks ownership", "statement": "Assigning to the two-type variant leaves it holding the assigned alternative, destroys what it held exactly once, and never frees an object it does not own.", "quantifier": "every sequence of constructions and assignments", "why_tests_cant": "All sequences.", "anchors": ["src/serac/infrastructure/variant.hpp: variant::operator=, variant_storage::clear"]}
{"id": "C39", "title": "Coefficient input options are unambiguous", "statement": "Exactly one definition of a coefficient is accepted from input, a piecewise-constant coefficient returns the given value on each listed attribute and zero on the unlisted ones below the largest listed attribute.", "quantifier": "all input tables", "why_tests_cant": "All combinations of keys and attribute maps.", "anchors": ["src/serac/infrastructure/input.cpp: FromInlet<CoefficientInputOptions>, constructScalar, constructVector"]}
{"id": "C40", "title": "Hardening and material input verification", "statement": "Material input verification accepts a table if and only if it provides the parameters the chosen model needs and none that belong to another model.", "quantifier": "all subsets of present keys and model names", "why_tests_cant": "All key combinations.", "anchors": ["src/serac/physics/materials/hardening_input.cpp", "src/serac/physics/materials/solid_material_input.cpp"]}
{"id": "C41", "title": "Parameterized materials match the plain ones", "statement": "A parameterized material (solid or conductor) answers as its plain counterpart whose constants are the offsets plus the parameters, and refuses what the counterpart refuses.", "quantifier": "all displacement and temperature gradients, constants and parameters, dimensions 2 and 3", "why_tests_cant": "Continuum of inputs; tests use 3D only.", "anchors": ["src/serac/physics/materials/parameterized_solid_material.hpp", "src/serac/physics/materials/solid_material.hpp"]}
{"id": "C42", "title": "Stress measures transform consistently", "statement": "The residual's flux does not depend on whether a material reports Cauchy, Kirchhoff or Piola stress: the conversions used satisfy P = det(F) sigma F^-T = tau F^-T.", "quantifier": "all invertible deformation gradients and stresses", "why_tests_cant": "Continuum of inputs.", "anchors": ["src/serac/physics/materials/solid_material.hpp: KirchhoffToPiola, CauchyToPiola", "src/serac/physics/solid_mechanics.hpp: MaterialStressFunctor"]}
{"id": "C43", "title": "Generated meshes are geometrically right", "statement": "Disk/ball mesh construction maps the L1 unit ball onto the L2 unit ball, ring and cylinder construction places polygon-edge vertices on the requested radii, and ring connectivity uses only existing vertices.", "quantifier": "all vertices, radii, angles and sector counts", "why_tests_cant": "All parameters.", "anchors": ["src/serac/mesh/mesh_utils.cpp: squish, buildDiskMesh, buildRing, buildCylinderMesh"]}
{"id": "C44", "title": "Polynomial families", "statement": "The recurrences for powers, Chebyshev, Legendre and Bernstein polynomials satisfy their defining identities for every length n.", "quantifier": "all n and all arguments", "why_tests_cant": "All n and x.", "anchors": ["src/serac/numerics/functional/polynomials.hpp: powers, ChebyshevT, ChebyshevU, Legendre, Bernstein"]}
{"id": "C45", "title": "Strong boundary enforcement leaves free equations alone", "statement": "Eliminating essential dofs from a system J x = r (homogeneous or not) gives a system whose solution takes the prescribed values on constrained dofs and satisfies the original equations on all others.", "quantifier": "all matrices, essential sets and prescribed values", "why_tests_cant": "All systems.", "anchors": ["src/serac/physics/boundary_conditions/boundary_condition.cpp: apply", "src/serac/physics/boundary_conditions/boundary_condition_manager.hpp: eliminateAllEssentialDofsFromMatrix", "src/serac/physics/solid_mechanics.hpp: buildQuasistaticOperator, warmStartDisplacement"]}
{"id": "C46", "title": "The clock is right for every time integrator", "statement": "After advanceTimestep(dt), time() has grown by dt for every supported time integration method.", "quantifier": "all methods, times and step sizes", "why_tests_cant": "Tests check solutions at the end of runs with a few of the integrators, not time() for each of them.", "anchors": ["src/serac/numerics/odes.cpp: FirstOrderODE::Solve, SecondOrderODE::Solve, SetTimestepper", "src/serac/physics/heat_transfer.hpp: advanceTimestep"]}
{"id": "C47", "title": "Finite-strain elastic models reduce to linear elasticity at small strain", "statement": "For small displacement gradients the neo-Hookean and St. Venant-Kirchhoff stresses have the linear isotropic stress with the same bulk and shear moduli as their linear part, in two and in three dimensions.", "quantifier": "All moduli and every differentiable curve of displacement gradients through zero, dimension 2 and 3.", "why_tests_cant": "A directional derivative in every direction for all moduli; tests compare single strains with hand-coded numbers.", "anchors": ["src/serac/physics/materials/solid_material.hpp:LinearIsotropic, StVenantKirchhoff, NeoHookean"]}
{"id": "C48", "title": "Backward Euler steps satisfy the equations at the end of the step", "statement": "One backward Euler step (first-order heat conduction, or a second-order system rewritten as first order) ends in a state where the governing equation holds at unconstrained dofs, the difference relations hold, and constrained dofs follow the prescribed motion as the documentation of the chosen enforcement method says.", "quantifier": "all systems, step sizes, states and enforcement methods", "why_tests_cant": "All systems and all prescribed motions; tests use a few manufactured solutions.", "anchors": ["src/serac/numerics/odes.cpp: FirstOrderODE::Solve, SecondOrderODE::ImplicitSolve", "src/serac/numerics/solver_config.hpp: DirichletEnforcementMethod"]}
{"id": "C49", "title": "Contact residual depends only on its arguments", "statement": "Evaluating the contact residual at a displacement and a vector of multipliers gives the same forces and gaps whatever was evaluated before, and a penalty-enforced frictionless interaction never pulls the surfaces together.", "quantifier": "all reachable contact states, gap fields, multiplier vectors and evaluation histories", "why_tests_cant": "Newton and line-search histories cannot be enumerated; tests run one load path.", "anchors": ["src/serac/physics/contact/contact_data.cpp: residualFunction, setPressures", "src/serac/physics/contact/contact_interaction.cpp: inactiveDofs"]}
{"id": "C50", "title": "Reductions over ranks are those of the whole vector", "statement": "The average, maximum, minimum and inner product of finite element vectors are those of the whole distributed vector, however its entries are divided over the ranks, including ranks that own none.", "quantifier": "all vectors and all partitions over ranks", "why_tests_cant": "All partitions; tests run with a couple of ranks.", "anchors": ["src/serac/physics/state/finite_element_vector.cpp: avg, max, min, innerProduct"]}
{"id": "C51", "title": "Heat conductors that can be constructed are admissible", "statement": "A heat conductor whose constructor accepts its parameters never sends heat up the temperature gradient and has nonnegative heat capacity, and every symmetric positive definite conductivity is accepted.", "quantifier": "all densities, heat capacities, conductivities (scalar, tensor, temperature dependent), temperatures and gradients", "why_tests_cant": "A sign condition over all gradients and tensors.", "anchors": ["src/serac/physics/materials/thermal_material.hpp", "src/serac/numerics/functional/tensor.hpp: is_symmetric, is_symmetric_and_positive_definite"]}
{"id": "C52", "title": "Mesh geometry is evaluated for every mesh", "statement": "Every domain and boundary integral uses the positions and Jacobians of the isoparametric map of the mesh it is given, whatever the order (1 to 3) and element shapes of that mesh; a mesh that is not supported is refused.", "quantifier": "all element geometries, mesh orders 1 to 3 and quadrature parameters 1 to 4, domain and boundary", "why_tests_cant": "The combinations are many and a missing one leaves uninitialised memory, which may look like valid numbers in a test.", "anchors": ["src/serac/numerics/functional/geometric_factors.cpp: GeometricFactors::GeometricFactors, compute_geometric_factors"]}
{"id": "C53", "title": "The driver's time loop", "statement": "With a positive dt and a start time before t_final the driver's loop ends; it takes full steps and a last step of at most dt, never passes t_final, and ends at t_final or less than 1e-8 dt short of it. The physics module's time and cycle, the summary times and the state files written agree with the driver's times at every step; a run restarted from a saved cycle takes exactly the remaining steps of the uninterrupted run. The module created is the one the input names, with its order and the mesh's dimension, and anything else is refused.", "quantifier": "every t_final, dt, start time and cycle, every physics step, every combination of input blocks, orders and dimensions", "why_tests_cant": "The tests run a few input files with dt dividing t_final; the number of steps and restart points is unbounded.", "anchors": ["src/drivers/serac.cpp: main, createPhysics, getOrder", "src/serac/physics/base_physics.cpp: outputStateToDisk, saveSummary"]}
{"id": "C54", "title": "Operator-split thermomechanics", "statement": "Every step of the coupled module solves the thermal problem with the displacement at the beginning of the step and then the solid problem with the temperature at the end of it, in every history of steps, resets and state changes; time and cycle of the coupled module and of its two parts agree, also after a restart; after a reset a run is repeated exactly; states are available by name, checkpoints and time steps can be retrieved; the coupled material's stress, heat capacity, flux and heat source all enter the equations; parameters and input file options take effect.", "quantifier": "all histories of steps, resets and state changes, all thermal and solid solves, all material responses, all start cycles and times", "why_tests_cant": "The order of the two solves and the agreement of three clocks must hold after any history; tests run a few steps from zero.", "anchors": ["src/serac/physics/thermomechanics.hpp: Thermomechanics (constructors), advanceTimestep, resetStates, state, setState, setMaterial"]}
{"id": "C55", "title": "Modules created from input files", "statement": "A module created from an input file applies every boundary condition, material, initial condition and time integration option of the file or refuses it; the result does not depend on the order in which the dictionary of boundary conditions is traversed; conditions that share an attribute are resolved by name; initial conditions are also what checkpoint 0 returns; no input leads to undefined behaviour.", "quantifier": "all dictionaries of boundary conditions, all iteration orders, all material lists, dimensions and option strings", "why_tests_cant": "The traversal order of a hash table is not under a test's control, and the combinations of entries are unbounded.", "anchors": ["src/serac/physics/heat_transfer.hpp: HeatTransfer(const HeatTransferInputOptions&, ...)", "src/serac/physics/solid_mechanics.hpp: SolidMechanics(const SolidMechanicsInputOptions&, ...)", "src/serac/physics/heat_transfer_input.cpp", "src/serac/physics/solid_mechanics_input.cpp", "src/serac/physics/boundary_conditions/boundary_condition_manager.cpp: addEssential"]}
{"id": "C56", "title": "The equation solver is the one requested", "statement": "Building the equation solver from options or an input file gives the nonlinear solver, linear solver and preconditioner requested, with the requested tolerances, iteration limits and print levels, or is refused; options a method does not have are refused when set; documented names are accepted; no options lead to undefined behaviour. Solving uses the operator set last, a zero right-hand side and the caller's vector as initial guess; a block operator given to a direct solver becomes one matrix with exactly the entries of its blocks.", "quantifier": "all combinations of solver options, build configurations, input files, sequences of operators and block structures", "why_tests_cant": "There are hundreds of combinations of solvers, preconditioners, options and build flags.", "anchors": ["src/serac/numerics/equation_solver.cpp: EquationSolver::EquationSolver, setOperator, solve, buildNonlinearSolver, buildLinearSolverAndPreconditioner, buildPreconditioner, buildMonolithicMatrix, defineInputFileSchema, FromInlet", "src/serac/numerics/solver_config.hpp"]}
{"id": "C57", "title": "Residuals balance", "statement": "The residual of a functional tested with any field is the sum over quadrature points of the q-function's output times the interpolated field. For a solid, the residual summed over all nodes is inertia minus body forces minus tractions plus pressure times the (current) area vector, whatever the stresses, and its moments about any axis contain no contribution of a symmetric Cauchy stress, at the deformed positions with geometric nonlinearity and at the reference positions without; for heat transfer the sum is stored heat minus sources plus boundary fluxes, whatever the conduction law.", "quantifier": "all meshes, element shapes and orders, quadrature rules, fields, materials, loads and times, in 2 and 3 dimensions", "why_tests_cant": "Balance must hold for every mesh, deformation and material; a test compares a few configurations with numbers.", "anchors": ["src/serac/numerics/functional/functional.hpp: operator()", "src/serac/numerics/functional/domain_integral_kernels.hpp", "src/serac/numerics/functional/boundary_integral_kernels.hpp", "src/serac/numerics/functional/finite_element.hpp: parent_to_physical, physical_to_parent", "src/serac/physics/solid_mechanics.hpp: MaterialStressFunctor, addBodyForce, setTraction, setPressure", "src/serac/physics/heat_transfer.hpp: ThermalMaterialIntegrand, setSource, setFluxBCs"]}
{"id": "C58", "title": "Functions of symmetric matrices", "statement": "The eigendecomposition of a symmetric 3x3 matrix returns ascending eigenvalues with their orthonormal eigenvectors, for distinct, close and repeated eigenvalues. The exponential, logarithm and square root built on it do not depend on which eigenvectors were chosen, invert one another, satisfy det exp(A) = exp(tr A), tr log(A) = log det A and sqrt(A)^2 = A, and the derivatives carried by dual numbers are the derivatives of the values in every direction, also where eigenvalues coincide.", "quantifier": "all symmetric 3x3 matrices, all choices of eigenvectors and all directions of differentiation", "why_tests_cant": "Coincident eigenvalues are a set of measure zero that random tests never hit, and the choice of eigenvectors jumps there.", "anchors": ["src/serac/numerics/functional/tuple_tensor_dual_functions.hpp: eig_symm, argsort, symmetric_mat3_function, symmetric_mat3_function_with_derivative, log_symm, exp_symm, sqrt_symm"]}
{"id": "C59", "title": "Finite-strain plasticity", "statement": "The finite-deformation J2 material returns for every sound material and invertible deformation, whatever the loading history. Plastic flow preserves volume and the accumulated plastic strain never decreases; a rotation of the body rotates the stress and does not touch the state; rigid motion causes neither stress nor flow. The stress is symmetric, is the elastic stress of the elastic deformation left in the state, lies within tolerance on the yield surface after flow and never outside it, flow follows the stress with non-negative work and equals the growth of accumulated strain, and a repeated call with the new state changes nothing.", "quantifier": "all material parameters and hardening laws, deformations, plastic states and loading histories", "why_tests_cant": "Requires every deformation path and every combination of elastic and plastic deformation; frame indifference and volume preservation are identities no finite set of samples settles.", "anchors": ["src/serac/physics/materials/solid_material.hpp: J2", "src/serac/numerics/functional/tuple_tensor_dual_functions.hpp: log_symm, exp_symm, solve_scalar_equation"]}
{"id": "C60", "title": "Liquid crystal elastomers", "statement": "The stress of the Bertoldi material is symmetric, rotates with the body, is the derivative of the strain energy the material reports, and vanishes in the undeformed body at the initial order parameter, for every material its constructor accepts. The Brighenti material gives symmetric stresses in every history; evaluating a step again changes nothing; warming a held body keeps the mean stress, lowers the stress along the director and raises it across it, and only the last temperature matters; the undeformed body is free of stress and stays so under rigid rotation; a deformation produces the same stress whether it is applied on the first or on a later call; the number of Kuhn segments has no effect.", "quantifier": "all material parameters, deformations, order parameters, temperatures, director angles and histories of calls", "why_tests_cant": "Frame indifference, work conjugacy and independence of history are identities over all deformations and call sequences.", "anchors": ["src/serac/physics/materials/liquid_crystal_elastomer.hpp: LiquidCrystElastomerBrighenti, LiquidCrystalElastomerBertoldi"]}
{"id": "C61", "title": "Matrix square root and polar decomposition", "statement": "The matrix square root of a symmetric positive definite matrix A is a symmetric positive definite B that commutes with A and satisfies B B = A to rounding, and the polar decomposition built on it splits an invertible deformation gradient into an orthogonal matrix and a symmetric positive definite one.", "quantifier": "all symmetric positive definite 3x3 matrices, all invertible deformation gradients", "why_tests_cant": "The number of iterations is fixed, so accuracy depends on the matrix; tests try one matrix.", "anchors": ["src/serac/numerics/functional/tensor.hpp: matrix_sqrt", "src/serac/physics/materials/liquid_crystal_elastomer.hpp: calculateDistributionTensor"]}
{"id": "C62", "title": "Edge elements", "statement": "Interpolating an H(curl) field on quadrilaterals and hexahedra gives its value and its curl at every quadrature point; integration adds to the residual exactly the weighted sums of source times shape function plus flux times curl, and is the transpose of interpolation; element matrices agree with the matrix-free action. The curl of the shape functions is the curl of the field; tangential components on a side or face are determined by the degrees of freedom of that side or face, so fields are tangentially continuous; gradients of nodal fields are edge fields without curl; and each degree of freedom is the component of the field at its node along its direction.", "quantifier": "all polynomial orders the code supports, quadrature rules, degrees of freedom, sources, fluxes and points", "why_tests_cant": "Tests compare a few fields with another library; conformity and exactness are statements about all fields and points.", "anchors": ["src/serac/numerics/functional/detail/quadrilateral_Hcurl.inl", "src/serac/numerics/functional/detail/hexahedron_Hcurl.inl", "src/serac/numerics/functional/detail/segment_Hcurl.inl", "src/serac/numerics/functional/polynomials.hpp: GaussLegendreInterpolation, GaussLegendreInterpolationDerivative"]}
{"id": "C63", "title": "Integrands see physical fields", "statement": "At every point of every curved element, an integrand receives the value of a nodal field and its gradient with respect to physical coordinates, or the value of an edge field and its physical curl, not their parent-element counterparts.", "quantifier": "all differentiable element maps with invertible Jacobian, all differentiable fields, in 2 and 3 dimensions", "why_tests_cant": "On affine or axis-aligned test meshes wrong transformations cancel; the identity must hold for every curved element.", "anchors": ["src/serac/numerics/functional/finite_element.hpp: parent_to_physical", "src/serac/numerics/functional/domain_integral_kernels.hpp: evaluation_kernel_impl"]}
{"id": "C64", "title": "Fitted fields are best approximations", "statement": "The field that fit returns for a user function minimises, over all fields of the space, the squared difference to the function at the quadrature points, weighted with the quadrature rule; a function that is a field of the space is reproduced.", "quantifier": "all meshes, spaces, quadrature rules, user functions and auxiliary fields", "why_tests_cant": "A test fits one function on one mesh; optimality is a statement about all competing fields.", "anchors": ["src/serac/physics/fit.hpp: fit"]}
{"id": "C65", "title": "A quasi-static step with contact ends in a physical contact state", "statement": "After advancing a contact problem, surfaces do not penetrate beyond the tolerance, contact pressures only push, act only where surfaces touch, and balance the internal forces and the loads at the new time; the Jacobian given to the solver is the derivative of the residual it iterates on, prescribed displacements stay prescribed.", "quantifier": "all loads, meshes, mixes of interactions, solver histories and time steps", "why_tests_cant": "Load paths, active-set histories and mixes of enforcements cannot be enumerated; tests press two blocks together once and never pull them apart.", "anchors": ["src/serac/physics/solid_mechanics_contact.hpp: quasiStaticSolve, buildQuasistaticOperator", "src/serac/physics/contact/contact_data.cpp: residualFunction, mergedJacobian, jacobianFunction, setPressures", "src/serac/physics/solid_mechanics.hpp: quasiStaticSolve"]}
{"id": "C66", "title": "Material test drivers report the response along the prescribed history", "statement": "Driving a material through a history of inputs returns one entry per step at evenly spaced times from 0 to the final time, each with the input prescribed for that time and the output and state the material gives when called once with the state of the previous entry. The uniaxial driver prescribes the axial strain, applies no shear and finds lateral strains at which the lateral stresses vanish, without leaving traces of the search in the state.", "quantifier": "all materials, states, histories, step counts", "why_tests_cant": "Tests drive a few materials through one history; a hidden state update or a search that stops early shows only for other materials.", "anchors": ["src/serac/physics/materials/material_verification_tools.hpp: uniaxial_stress_test, single_quadrature_point_test", "src/serac/numerics/functional/tuple_tensor_dual_functions.hpp: find_root"]}
{"id": "C67", "title": "Physics modules on a shared mesh keep their fields, and restarting continues from the saved ones", "statement": "A physics module constructed on a reloaded mesh starts from the fields saved for it, so a restarted run continues the saved one. The file written for a cycle holds the time and every field of the module, beside the fields of the other modules on the mesh. The shape displacement is one field per mesh, seen by every module on it, and changes only when it is set. A parameter accepts exactly the states of its own space, and calls on one module leave the others alone.", "quantifier": "all programs of constructions, steps, parameter and shape settings, outputs and loads, on any number of meshes and modules", "why_tests_cant": "Orders of construction, setting, output and restart multiply; a test restarts one module once or not at all and never adds a module after a shape displacement is set.", "anchors": ["src/serac/physics/base_physics.cpp: BasePhysics, setParameter, setShapeDisplacement, outputStateToDisk", "src/serac/physics/solid_mechanics.hpp: SolidMechanics, initializeSolidMechanicsStates", "src/serac/physics/heat_transfer.hpp: HeatTransfer, initializeThermalStates", "src/serac/physics/state/state_manager.cpp: newState, newDual, shapeDisplacement, updateState", "src/drivers/serac.cpp: main"]}
{"id": "C68", "title": "Time stepping a linear elastic body creates no energy and no momentum", "statement": "Advancing a linear elastic solid with the Newmark method changes its kinetic plus elastic energy by exactly the work of the loads and supports, so a free vibration on fixed supports keeps its energy for ever, whatever the sequence of time steps; damped variants and backward Euler only lose energy, and diffusion only smooths. For any material and any deformation the momentum changes by the impulse of loads and reactions.", "quantifier": "all meshes, elastic moduli, densities, dead loads, supports, initial states, numbers and sizes of steps, and Newmark parameters", "why_tests_cant": "Tests compare a few steps of one oscillator with an exact solution within a tolerance; a slow gain of energy, or one that needs a particular sequence of steps or supports, passes them.", "anchors": ["src/serac/numerics/odes.cpp: SecondOrderODE::Step, SecondOrderODE::Solve, FirstOrderODE::Solve", "src/serac/physics/solid_mechanics.hpp: setMaterial, addBodyForce, setTraction, setPressure, buildQuasistaticOperator, advanceTimestep", "src/serac/physics/materials/solid_material.hpp: LinearIsotropic"]}
{"id": "C69", "title": "Moving a body rigidly only turns its nodal forces", "statement": "Evaluating a solid's residual again after carrying every node along by a rigid motion, with accelerations and loads turned along, pressures acting on the deformed surface and a material whose stress turns with the body, succeeds whenever the first evaluation did and gives the same nodal forces, turned; so a node is in equilibrium after the motion exactly when it was before. This needs geometric nonlinearities to be on.", "quantifier": "all rotations and translations, meshes, deformations, accelerations, materials, densities, body forces, tractions and pressures", "why_tests_cant": "Tests turn a single material point or one beam; whether the pulled-back stress, the follower pressure and the inertia of an assembled residual turn alike must hold for every mesh, deformation and rotation.", "anchors": ["src/serac/physics/solid_mechanics.hpp: setMaterial, addBodyForce, setTraction, setPressure", "src/serac/physics/materials/solid_material.hpp: StVenantKirchhoff, NeoHookean", "src/serac/numerics/functional/functional.hpp: Functional::operator()"]}
{"id": "C70", "title": "The summary of a run records every step", "statement": "After initializeSummary and any number of saveSummary calls the summary on the root rank holds the number of ranks, the times in order and, for every state of the module, one value per call of each of six statistics (three norms, average, minimum, maximum) of the field as it was at that call; a run of the driver thus records every step it took. Other ranks store nothing; saving before initializing and initializing twice are refused.", "quantifier": "all modules and module names, rank counts, sequences of saves, end times, positive steps and solver behaviours", "why_tests_cant": "A test inspects the file of one short run; an entry paired with the wrong time, field or statistic, or a clash of names, shows only for other modules, rank counts or histories.", "anchors": ["src/serac/physics/base_physics.cpp: BasePhysics::initializeSummary, BasePhysics::saveSummary", "src/serac/infrastructure/output.cpp: outputSummary", "src/drivers/serac.cpp: main"]}
{"id": "C71", "title": "The command line decides what a run does", "statement": "With --version, --create-input-file-docs or --print-unused the executable builds no mesh, loads no saved state, takes no step and writes nothing but the documentation it was asked for; with --restart-cycle it loads exactly that cycle from the output directory and continues from its time; otherwise it builds the mesh named in the input file, found as given or beside the input file, and starts at zero. All files go to the output directory, by default the input file's name without directory and extension, and the ParaView directory beside it. Bad combinations are refused.", "quantifier": "all combinations and values of the options, file systems and saved states", "why_tests_cant": "Tests start the executable with a handful of command lines; the combinations of options, names and existing files are unbounded.", "anchors": ["src/serac/infrastructure/cli.cpp: defineAndParse, printGiven", "src/serac/infrastructure/input.cpp: findMeshFilePath, getInputFileName", "src/drivers/serac.cpp: main"]}
{"id": "C72", "title": "A uniformly strained mesh carries no force at its inner nodes", "statement": "When the displacements of a homogeneous solid are an affine function of the position, however irregular the mesh, the residual vanishes at every node which is surrounded by elements and which no surface load touches; a node on the boundary gets the stress applied to the area vectors of the faces meeting there, and is in equilibrium too when those faces carry the traction or pressure of that stress. Likewise for heat conduction under temperatures affine in the position. So linear elements reproduce uniform states exactly (the patch test).", "quantifier": "all meshes of linear triangles, quadrilaterals, tetrahedra and hexahedra in any combination, affine fields, materials without state, and numberings of nodes", "why_tests_cant": "A patch test runs on a few meshes and materials to a tolerance; cancellation between neighbouring elements must hold for every mesh, distortion, orientation and deformation.", "anchors": ["src/serac/physics/solid_mechanics.hpp: setMaterial", "src/serac/physics/heat_transfer.hpp: setMaterial", "src/serac/numerics/functional/functional.hpp: Functional::operator()", "src/serac/numerics/functional/detail/triangle_H1.inl: shape_function_gradient", "src/serac/numerics/functional/detail/quadrilateral_H1.inl: shape_function_gradient", "src/serac/numerics/functional/detail/tetrahedron_H1.inl: shape_function_gradient", "src/serac/numerics/functional/detail/hexahedron_H1.inl: shape_function_gradient"]}
{"id": "C73", "title": "A quasi-static run is a sequence of equilibria", "statement": "Each step of a quasi-static solid mechanics run advances time by dt, puts the prescribed displacements of the new time in place, and, when the nonlinear solver reports convergence, leaves free dofs with nodal forces within tolerance at that time; the tangent the solver works with is the derivative of those forces. Material state changes exactly once per step, from its value at the end of the previous step and with the displacement found, so neither the solver used nor the number of its iterations leaves a trace in it. The reactions are the nodal forces of the solution, and together carry the applied loads. Resetting the module starts the run afresh, a checkpoint file holds the fields of its step, and the warm start linearises about the previous step.", "quantifier": "all functionals, meshes, materials with state, parameters, nonlinear solvers given as any sequence of residual and Jacobian evaluations, and sequences of steps", "why_tests_cant": "Tests run a few steps with one solver and one material; that hidden state (material history, saved parameters, checkpoints) is touched once and at the right point must hold for every solver path and history.", "anchors": ["src/serac/physics/solid_mechanics.hpp: SolidMechanics::advanceTimestep, quasiStaticSolve, warmStartDisplacement, buildQuasistaticOperator, resetStates", "src/serac/physics/base_physics.cpp: BasePhysics::outputStateToDisk", "src/serac/numerics/functional/functional.hpp: Functional::updateQdata, operator()", "src/serac/numerics/equation_solver.cpp: NewtonSolver::Mult"]}
{"id": "C74", "title": "Going back through a quasi-static run gives the gradient of the objective", "statement": "After a quasi-static run, stepping back through all its steps with the adjoint loads of an objective (a sum over steps of functions of displacement and parameters, or of reactions) and adding up the sensitivities of the steps gives the derivative of that objective with respect to a parameter field along the family of runs the parameter defines. The tangent and the parameter gradient used at a step are those of the residual at that step. No step can be taken back beyond the first.", "quantifier": "all residual functionals, materials, parameters, boundary conditions, numbers and sizes of steps, objectives and directions", "why_tests_cant": "Tests compare one finite difference for a few materials and one step; which displacement, time, material state and parameters enter at each backward step shows only for histories of several different steps.", "anchors": ["src/serac/physics/solid_mechanics.hpp: SolidMechanics::setAdjointLoad, reverseAdjointTimestep, computeTimestepSensitivity, computeTimestepShapeSensitivity, computeDualAdjointLoad, computeDualSensitivity, computeDualShapeSensitivity", "src/serac/physics/base_physics.cpp: BasePhysics::getCheckpointedStates, getCheckpointedTimestep", "src/serac/numerics/functional/functional.hpp: Functional::operator(), Gradient::assemble"]}
{"id": "C75", "title": "Dividing the mesh among processes changes no result", "statement": "Residuals, quantities of interest, the action of a gradient, the assembled gradient matrix, the gradient of a quantity of interest, and the material state left at every element after any history of evaluations are the same however the mesh is divided among processes: for every partition, every local numbering, processes without boundary faces and processes without elements, up to the order of real additions.", "quantifier": "all functionals, meshes, partitions into any number of parts (possibly empty), local numberings, and histories of evaluations with or without differentiation and state update", "why_tests_cant": "Tests run a few meshes on one to four processes; that no element is lost, counted twice, or paired with another process's state or numbering must hold for every partition.", "anchors": ["src/serac/numerics/functional/functional.hpp: Functional::AddDomainIntegral, AddBoundaryIntegral, operator(), ActionOfGradient, Gradient::assemble", "src/serac/numerics/functional/functional_qoi.inl: Functional<double(trials...)>::operator(), QoIProlongation, Gradient::assemble", "src/serac/numerics/functional/dof_numbering.hpp: GradientAssemblyLookupTables::init"]}
{"id": "C76", "title": "A transient run satisfies its equation of motion at every step", "statement": "Each dynamic step of a solid, and each transient or steady step of heat transfer, advances the time by dt and, when its solves report convergence, leaves displacement, velocity and acceleration (temperature and rate) related by the update formula of the chosen integrator, constrained dofs where their boundary conditions put them at the new time, and nodal forces including inertia within tolerance at free dofs at the new time; the reported reactions are those forces. The Jacobian which the solver works with is the derivative of the residual it works with. Material state changes exactly once per dynamic step, with the displacement and acceleration found, and how the solver found them leaves no other trace. The first acceleration balances the forces at the start time of the run.", "quantifier": "all residual functionals, materials with state, parameters, integrators (Newmark with any coefficients, backward Euler), treatments of boundary conditions, nonlinear solvers given as any sequence of residual and Jacobian evaluations, start times and sequences of steps", "why_tests_cant": "Tests compare a few linear problems from time 0 with exact solutions to a tolerance; a coefficient, time or state used at the wrong point shows only for other integrators, start times, materials with state or moving boundaries.", "anchors": ["src/serac/physics/solid_mechanics.hpp: SolidMechanics::completeSetup, advanceTimestep", "src/serac/physics/heat_transfer.hpp: HeatTransfer::completeSetup, advanceTimestep", "src/serac/numerics/odes.cpp: SecondOrderODE::Step, SecondOrderODE::Solve, FirstOrderODE::Solve", "src/serac/numerics/functional/functional.hpp: Functional::operator(), Gradient::assemble"]}
{"id": "C77", "title": "Stepping back through a heat conduction run gives the derivative of the objective", "statement": "After a transient run of heat transfer, stepping back through all its steps with the adjoint loads of an objective (a sum over steps of functions of temperature, temperature rate and parameter) and adding up the sensitivities of the steps gives, together with the initial condition sensitivity and the explicit derivative, the derivative of that objective along any family of runs in which a parameter field and the initial temperature vary. Each step is linearised at the temperature, rate and time at which it ended and with the step size it had, so loads and sources that depend on time enter at the right time. After steady runs the same holds for objectives of temperature and parameter, with no influence of the initial temperature. No step can be taken back beyond the first.", "quantifier": "all residual functionals, materials, parameters, boundary conditions and their treatments, numbers and sizes of steps, objectives of temperature and rate, and directions of change", "why_tests_cant": "A comment in the code says that the time is likely handled wrongly on the way back and that no test would show it; tests compare one finite difference for one problem with few steps of equal size.", "anchors": ["src/serac/physics/heat_transfer.hpp: HeatTransfer::setAdjointLoad, reverseAdjointTimestep, computeTimestepSensitivity, computeTimestepShapeSensitivity, computeInitialConditionSensitivity", "src/serac/physics/base_physics.cpp: BasePhysics::getCheckpointedStates, getCheckpointedTimestep", "src/serac/numerics/functional/functional.hpp: Functional::operator(), Gradient::assemble"]}
{"id": "C78", "title": "Stepping back through a dynamic run gives the derivative of the objective", "statement": "After a dynamic run of a solid with the Newmark method, stepping back through all its steps with the adjoint loads of an objective (a sum over steps of functions of displacement, acceleration and parameter) and adding up the sensitivities of the steps gives, together with the sensitivities to initial displacement and velocity and the explicit derivative, the derivative of that objective along any family of runs in which a parameter field and the initial state vary. Each step is linearised at the displacement, acceleration and time at which it ended, with the size it had and the size of the step after it. No step can be taken back beyond the first.", "quantifier": "all residual functionals, materials without memory, parameters, boundary conditions and their treatments, numbers and sizes of steps, objectives and directions of change", "why_tests_cant": "Tests compare finite differences of a few objectives for one beam and equal steps; a coefficient that mixes up the sizes of neighbouring steps, or the time or state of the wrong step, shows only for histories of several different steps.", "anchors": ["src/serac/physics/solid_mechanics.hpp: SolidMechanics::setAdjointLoad, reverseAdjointTimestep, computeTimestepSensitivity, computeTimestepShapeSensitivity, computeInitialConditionSensitivity", "src/serac/physics/solid_mechanics.cpp: adjoint_integrate", "src/serac/physics/base_physics.cpp: BasePhysics::getCheckpointedStates, getCheckpointedTimestep", "src/serac/numerics/functional/functional.hpp: Functional::operator(), Gradient::assemble"]}
{"id": "C79", "title": "A simulation and its sensitivities do not depend on the number of processes", "statement": "Run the same simulation on one process and on several which share the mesh, each with elements: quasi-static, dynamic or heat conduction, with warm starts, any nonlinear solver and any boundary conditions. After every step all fields at true degrees of freedom, reactions and checkpoints are the same (up to rounding), each process holds for its elements the material state which the single process holds there, and a reverse pass gives the same sensitivities. If the run stops on one process it stops on several, at the same place.", "quantifier": "every division of every mesh among processes, every local numbering, every material with internal state, every sequence of loads, every nonlinear and linear solver that works on the whole system, every length of run", "why_tests_cant": "tests run each problem on one or two process counts with loose tolerances and compare with stored norms, not runs with each other; material history and reverse passes on several processes are hardly compared at all", "anchors": ["src/serac/numerics/functional/functional.hpp:Functional", "src/serac/physics/solid_mechanics.hpp:advanceTimestep, reverseAdjointTimestep", "src/serac/physics/heat_transfer.hpp:advanceTimestep, reverseAdjointTimestep"]}
{"id": "C80", "title": "Every quadrature point keeps its own material history in the buffers", "statement": "The states of a material with memory live in buffers which the user asks a physics module to create and passes to setMaterial. Every evaluation stays within the buffer, and the state kept for a point of an element is the one the material last returned for that very point, whatever materials, domains, geometries and parameter fields the module has.", "quantifier": "all functionals, domains, buffers, assignments of buffers to materials, orders of the module and of its parameter fields, and histories of evaluations", "why_tests_cant": "Tests use one material with memory on the whole mesh with parameters of at most the module's order; overlapping rows or a write past the end show only for other combinations, and then only as slightly wrong stresses.", "anchors": ["src/serac/numerics/functional/quadrature_data.hpp: QuadratureData", "src/serac/physics/state/state_manager.hpp: StateManager::newQuadratureDataBuffer", "src/serac/numerics/functional/domain_integral_kernels.hpp: batch_apply_qf, evaluation_kernel_impl", "src/serac/numerics/functional/functional.hpp: Functional::Q", "src/serac/numerics/functional/geometry.hpp: num_quadrature_points", "src/serac/physics/solid_mechanics.hpp: SolidMechanics::createQuadratureDataBuffer, setMaterial"]}
{"id": "C81", "title": "A coupled thermomechanical step balances heat and forces", "statement": "Advance the coupled thermomechanics module, with steady or transient conduction and a quasi-static or dynamic solid. Every step succeeds and the clocks of the coupled module and of its two parts stay together. When both nonlinear solvers report convergence, the boundary conditions of both fields hold, the forces balance with the displacement, temperature and time at the end of the step, the heat balance holds with the temperature at its end and the displacement at its start, and the material of the solid is updated exactly once, with the new temperature. A coupled run is a run of each module with the other's field as a parameter. (One could also expect heat to balance in the configuration reported at the end of the step.)", "quantifier": "all meshes, materials with memory, functionals, boundary conditions, loads, nonlinear solvers, enforcement methods, integrators and numbers of steps", "why_tests_cant": "Tests run a few steps of one bar or beam with one material and compare norms; using the field of the wrong time level, or updating the material with the wrong temperature, changes these by less than their tolerance.", "anchors": ["src/serac/physics/thermomechanics.hpp: Thermomechanics::advanceTimestep, ThermalMaterialInterface, MechanicalMaterialInterface", "src/serac/physics/base_physics.cpp: BasePhysics::setParameter", "src/serac/physics/heat_transfer.hpp: HeatTransfer::advanceTimestep", "src/serac/physics/solid_mechanics.hpp: SolidMechanics::advanceTimestep"]}
{"id": "C82", "title": "Derivatives of functionals whose integrands are written with the library's number types", "statement": "When every integrand of a functional is written with the operations the library provides for its dual numbers, then after any history of evaluations the gradient last asked for with respect to an argument is exactly the derivative of the residual with respect to that argument, the gradients with respect to several arguments add up to the derivative along any motion of all of them, and the tangent given to the nonlinear solver is the derivative of the nodal forces, at every point where no operation on varying numbers is evaluated where it has no derivative. The user does not have to trust a separate statement about derivatives of the integrand. For solid mechanics with the elastic materials of the library this covers every configuration without inverted points, and for heat transfer with its conductors every temperature field at which the sources and fluxes of the user are differentiable.", "quantifier": "all integrands built from the provided operations and comparisons, numbers of arguments, components and quadrature points, meshes, histories of evaluations, directions and motions; material states enter as constants of the point", "why_tests_cant": "A test compares a gradient with finite differences for one integrand at a few states; it cannot show that seeding one argument at a time with unit directions and reading the stored numbers gives the derivative for every integrand that can be written", "anchors": ["src/serac/numerics/functional/domain_integral_kernels.hpp: evaluation_kernel_impl", "src/serac/numerics/functional/tuple_tensor_dual_functions.hpp: promote_each_to_dual_when, make_dual, get_gradient, inv", "src/serac/numerics/functional/dual.hpp: dual", "src/serac/physics/solid_mechanics.hpp: MaterialStressFunctor", "src/serac/physics/heat_transfer.hpp: ThermalMaterialIntegrand, setSource, setFluxBCs", "src/serac/physics/materials/solid_material.hpp: LinearIsotropic, StVenantKirchhoff, NeoHookean", "src/serac/physics/materials/thermal_material.hpp: LinearIsotropicConductor, LinearConductor, IsotropicConductorWithLinearConductivityVsTemperature"]}
{"id": "C83", "title": "A field on a face of the mesh is the element's own field there", "statement": "Integrals over the boundary read a field from the degrees of freedom picked for each face, with the face's own shape functions. For a discontinuous field of order zero to three on triangles, quadrilaterals, tetrahedra and hexahedra, the value read at any point of a face is the value of the adjacent element's field at the point of that element which lies at the same place, whichever side of the element the face is and however the element is turned relative to it. On an interior face whose two elements are both present the two values belong to the same place. Fields whose degrees of freedom on a face are shared by its two elements are continuous across it. The functions of order zero are the constant one with zero gradient.", "quantifier": "all meshes of these elements, sides, orientations, orders up to three, degree of freedom numberings, nodal values and points of faces", "why_tests_cant": "A test integrates over the boundary of a few meshes whose elements are all turned alike; a wrong entry in one of the orientation tables, or a side listed backwards, shows only for the orientation concerned and for fields that vary along the face.", "anchors": ["src/serac/numerics/functional/element_restriction.cpp: GetFaceDofs, face_permutations, geom_local_face_dofs", "src/serac/numerics/functional/detail/triangle_L2.inl, tetrahedron_L2.inl, quadrilateral_L2.inl, hexahedron_L2.inl, segment_L2.inl: shape_function, shape_function_gradient", "src/serac/numerics/functional/functional.hpp: Functional (boundary restrictions)"]}
{"id": "C84", "title": "The mesh of a run is the one its input file describes", "statement": "The mesh block of an input file describes a box, a disk, a ball or a file, and numbers of serial and parallel refinements. For a box the elements of all processes together are the cells of the box of the given sizes with the given numbers of elements, doubled along every side by each refinement, every cell once. For a disk or ball the number of elements is the smallest reachable one that comes within the stated fraction of the wish, times four or eight per refinement, and the corners of the boundary lie on the circle or sphere. A file is looked for as named and then next to the input file, and refined as often as asked. The result does not depend on the number of processes, on how elements are divided among them, or on how the refinements are split into serial and parallel ones. A description from which no mesh can be made is refused with a message.", "quantifier": "all mesh blocks with any entries present or absent, sizes, numbers, levels, file systems, numbers of processes and divisions of the elements among them", "why_tests_cant": "Tests read four input files on one process and check that the run ends; wrong sizes, a forgotten entry or a refinement lost on some processes need combinations they do not contain.", "anchors": ["src/serac/mesh/mesh_utils.cpp: mesh::InputOptions::defineInputFileSchema, FromInlet<mesh::InputOptions>, mesh::buildParallelMesh, mesh::refineAndDistribute, buildMeshFromFile, buildRectangleMesh, buildCuboidMesh, buildDiskMesh, buildBallMesh", "src/serac/infrastructure/input.cpp: findMeshFilePath", "src/drivers/serac.cpp: main, defineInputFileSchema"]}
{"id": "C85", "title": "A uniform pressure on a closed surface pushes the body nowhere", "statement": "Raising a uniform pressure on boundary elements which together close a surface, with everything else as it was, changes the nodal forces of a solid by forces whose sum and whose moments vanish, whatever the deformation; on any motion of the nodes they work the rise of the pressure times the change of the enclosed volume, so the load has a potential. With geometric nonlinearities the surface is the deformed one, without them the undeformed one. When the surface bounds elements of the mesh, the enclosed volume is the volume of these elements as the quadrature computes it.", "quantifier": "every mesh of linear elements in 2D and 3D whose pressed boundary elements (segments, triangles, quads) close a surface, every deformation, every nodal motion, both settings of geometric nonlinearity", "why_tests_cant": "tests compare a pressurised body with one analytic solution on one mesh; that no spurious net force or moment arises holds only by cancellation over all edges of all faces, for every deformed shape", "anchors": ["src/serac/physics/solid_mechanics.hpp: setPressure", "src/serac/numerics/functional/tensor.hpp: cross", "src/serac/numerics/functional/boundary_integral_kernels.hpp", "src/serac/numerics/functional/functional.hpp: Functional::operator()"]}
{"id": "C86", "title": "Zeros, identities and full tensors can be mixed in one expression", "statement": "A material may be written with the exact zero, with identities and other isotropic tensors, or with full tensors. Whichever form each operand has, an expression built from sums, differences, products, quotients by numbers, contractions, symmetric and antisymmetric parts, deviators, traces, transposes, inverses, determinants and norms that compiles returns the array which index notation gives for it, and divides by zero only where that has no value.", "quantifier": "all expressions of any depth over these operations, all choices of form for every operand, all entries, every dimension (2 and 3 where determinants or inverses of full tensors are involved)", "why_tests_cant": "each overload is tested on one literal; which overload an operator picks depends on the forms of all sub-expressions, and there are unboundedly many expressions", "anchors": ["src/serac/numerics/functional/isotropic_tensor.hpp: isotropic_tensor, operator+, operator-, operator*, dot, double_dot, sym, antisym, tr, transpose, inv, det, norm, squared_norm", "src/serac/numerics/functional/tensor.hpp: zero, operator+, operator-, operator*, operator/, dot, double_dot", "src/serac/numerics/functional/tuple_tensor_dual_functions.hpp: operator*, operator/"]}
{"id": "C87", "title": "An elastic body gives back the work done on it", "statement": "For a body of a material with a stored energy, under body forces, tractions and pressures which do not follow the deformation, the nodal forces the solid module evaluates are the inertia forces plus the slope of the potential energy (stored energy minus work of the loads). So work done on a path of displacements depends only on its ends and is zero on closed paths; a displacement is an equilibrium exactly when the potential energy is stationary for all displacements the supports allow, and for linear elasticity exactly then smallest; and in a motion under constant loads with supports at rest, kinetic plus potential energy stays the same. Linear elasticity with linear geometry, and St. Venant-Kirchhoff and neo-Hookean materials with nonlinear geometry, have such energies.", "quantifier": "all meshes, elements and quadrature rules, 2D and 3D, all materials with a stored energy, loads, displacements, smooth paths and motions, sets of supports, and moduli", "why_tests_cant": "Tests compare single solutions with analytic ones to a tolerance; energy lost or created along some path, through a force that is not the slope of any energy, needs every path to be excluded.", "anchors": ["src/serac/physics/solid_mechanics.hpp: SolidMechanics, MaterialStressFunctor, setMaterial, addBodyForce, setTraction, setPressure", "src/serac/physics/materials/solid_material.hpp: LinearIsotropic, StVenantKirchhoff, NeoHookean", "src/serac/numerics/functional/functional.hpp: Functional::operator()"]}
{"id": "C88", "title": "The PETSc solvers run with the options they were given", "statement": "When an equation solver is built with PETSc's nonlinear or linear solvers, then in every history of setting the operator, linear solves (warm starts, adjoint solves) and nonlinear solves, each nonlinear solve runs the requested method and line search with the requested tolerances, limits and forced first iteration; each linear system solved is the one handed over, in order, and is preconditioned with its own matrix and not with an earlier one; and it is solved to the requested linear tolerances. Before a line search, a step into states with non-finite residuals is halved until the residual is finite, never more often than needed, and the caller is told whether the step changed.", "quantifier": "all option sets and builds, all histories of operator updates, linear and nonlinear solves of any length, all residual functions, states, steps and step lengths", "why_tests_cant": "Tests run a few solver combinations on one problem and see only that it converges; settings that take effect only after some earlier call, or a stale preconditioner, show up as slow or inaccurate runs in other histories.", "anchors": ["src/serac/numerics/petsc_solvers.cpp: PetscNewtonSolver, PetscKSPSolver, convertKSPPreSolve, linesearchPreCheckBackoffOnNan", "src/serac/numerics/equation_solver.cpp: EquationSolver::setOperator, buildNonlinearSolver, buildLinearSolverAndPreconditioner"]}
{"id": "C89", "title": "The stiffness of an elastic body is symmetric", "statement": "At every displacement without inverted points, the matrix which the solid module assembles for a body of the library's elastic materials is symmetric, and stays so after the essential boundary conditions have been eliminated; a user may therefore choose a solver for symmetric systems, and the displacement caused by one small load, measured by another, equals the reverse. The same holds for the matrices of implicit time steps, and for every material which stores an energy. The law and the geometry must fit: small-strain laws with linear geometry, finite-strain laws with nonlinear geometry, and pressures which do not follow the deformation.", "quantifier": "all meshes, elements, quadrature rules, 2D and 3D, moduli and parameter fields, loads, displacements, accelerations, sets of constrained degrees of freedom and histories of evaluations", "why_tests_cant": "Tests solve a few problems with conjugate gradients and compare the result; an unsymmetric term that vanishes at the tested displacements, or is small there, slows or spoils the solver elsewhere without any message.", "anchors": ["src/serac/physics/solid_mechanics.hpp: SolidMechanics, MaterialStressFunctor, setMaterial, addBodyForce, setTraction, setPressure", "src/serac/physics/materials/solid_material.hpp: LinearIsotropic, StVenantKirchhoff, NeoHookean", "src/serac/physics/materials/parameterized_solid_material.hpp: ParameterizedLinearIsotropicSolid, ParameterizedNeoHookeanSolid", "src/serac/numerics/functional/functional.hpp: Functional::Gradient::assemble", "src/serac/numerics/functional/domain_integral_kernels.hpp: action_of_gradient_kernel, element_gradient_kernel"]}
{"id": "C90", "title": "A supported linear elastic body has exactly one equilibrium", "statement": "For a body of linear elastic material with positive moduli and any dead loads, the static problem of the solid module has exactly one solution for every load and every prescribed displacement if, and only if, the supports leave no displacement without strain. On a mesh of triangles or tetrahedra that hangs together across edges or faces, clamping two nodes in the plane, or three nodes not on a line in space, is enough. With too few supports two solutions differ only by a displacement without strain, and such displacements are the only ones that cost no energy.", "quantifier": "all meshes, elements and quadrature rules with positive weights, 2D and 3D, moduli, loads, times, sets of held degrees of freedom and prescribed values", "why_tests_cant": "Tests solve a few well supported problems; a missing quadrature point, a wrong strain or a lost stress component that lets some mode deform for free on other meshes or supports shows only as a solver that stalls or wanders.", "anchors": ["src/serac/physics/solid_mechanics.hpp: SolidMechanics, MaterialStressFunctor, setMaterial, addBodyForce, setTraction, quasiStaticSolve", "src/serac/physics/materials/solid_material.hpp: LinearIsotropic", "src/serac/numerics/functional/functional.hpp: Functional::operator()", "src/serac/physics/boundary_conditions/boundary_condition_manager.hpp: BoundaryConditionManager::allEssentialTrueDofs"]}
{"id": "C91", "title": "A conducting body has exactly one steady temperature, and every implicit step exactly one answer", "statement": "For linear heat conduction (constant capacity and symmetric positive definite conductivity, sources that do not depend on the temperature, prescribed fluxes or cooling at the boundary), the steady problem of the heat module has exactly one solution for all supplies and all prescribed temperatures if, and only if, the prescribed temperatures leave no change without a gradient; on triangles and tetrahedra it is enough that every node is reached through elements from a node with a prescribed temperature. Otherwise two solutions differ by a change without gradients. Every implicit time step of positive length has exactly one answer, whatever is prescribed, if every node belongs to an element with material.", "quantifier": "all meshes, elements and quadrature rules with positive weights, 2D and 3D, capacities, conductivities, supplies, times, step lengths, predicted temperatures, sets of prescribed degrees of freedom and prescribed values", "why_tests_cant": "Tests solve a few problems with the temperature held on whole sides; a lost gradient component or quadrature point that lets some temperature change go unnoticed needs other meshes or supports to appear.", "anchors": ["src/serac/physics/heat_transfer.hpp: HeatTransfer, setMaterial, setSource, setFluxBCs, completeSetup, advanceTimestep", "src/serac/physics/materials/thermal_material.hpp: LinearConductor, LinearIsotropicConductor", "src/serac/numerics/functional/functional.hpp: Functional::operator()"]}
{"id": "C92", "title": "The stiffness matrix of a supported linear elastic body is positive definite and Newton's method solves it in one step", "statement": "For linear elastic material with positive moduli and loads that do not follow the deformation, the matrix assembled from the automatically differentiated residual is the same at every displacement, time and load: its entries are the strain energies of pairs of unit displacements. After the essential degrees of freedom are eliminated it is positive definite if, and only if, the supports leave no displacement without strain, so conjugate gradients and Cholesky apply and the linear system of every step has exactly one solution. With an exact linear solver, the Newton solver takes exactly one step from any displacement that has the prescribed values (unless it accepts that displacement as it is), whatever its line search options, reports convergence and ends in equilibrium.", "quantifier": "all meshes, elements and quadrature rules with positive weights, 2D and 3D, moduli, loads, times, start displacements, sets of held degrees of freedom, prescribed values, tolerances and line search options", "why_tests_cant": "Tests solve a few well supported problems; a derivative that is wrong in one entry, a row eliminated without its column or a step with the wrong sign can still converge slowly there and fails on other meshes, loads or supports.", "anchors": ["src/serac/physics/solid_mechanics.hpp: SolidMechanics, MaterialStressFunctor, setMaterial, buildQuasistaticOperator, quasiStaticSolve", "src/serac/physics/materials/solid_material.hpp: LinearIsotropic", "src/serac/numerics/functional/functional.hpp: Functional::Gradient::assemble", "src/serac/numerics/equation_solver.cpp: NewtonSolver::Mult"]}
{"id": "C93", "title": "A quasi-static run of a supported linear elastic body does not depend on its history", "statement": "For a supported linear elastic body with loads that do not follow the deformation, every call of advanceTimestep converges and leaves the displacement in the equilibrium of the new time, from any state of the module and whatever the step length, warm start and line search options, when the linear solver is exact for symmetric positive definite systems and the absolute tolerance is zero. Two simulations, from any states and with any numbers and lengths of steps, therefore agree in displacements and reactions wherever their times agree: one large step gives what many small steps give.", "quantifier": "all meshes, elements and quadrature rules with positive weights, 2D and 3D, moduli, loads and prescribed displacements varying in time, start states, numbers and lengths of steps, relative tolerances below one and line search options", "why_tests_cant": "Tests run one sequence of steps from rest; a quantity carried over from the step before, a stale time in the residual or prescribed values of the wrong time needs another sequence of steps to appear.", "anchors": ["src/serac/physics/solid_mechanics.hpp: SolidMechanics::advanceTimestep, quasiStaticSolve, warmStartDisplacement, completeSetup, buildQuasistaticOperator", "src/serac/physics/materials/solid_material.hpp: LinearIsotropic", "src/serac/numerics/equation_solver.cpp: NewtonSolver::Mult"]}
{"id": "C94", "title": "Every implicit time step of linear elastodynamics has exactly one answer", "statement": "For linear elastic material with positive moduli and density, the equation of an implicit time step - the residual at the displacement predicted with acceleration a, and at a, vanishes on the free degrees of freedom while the others have their prescribed accelerations - has exactly one solution if, and only if, every motion that the supports allow strains the material or moves some quadrature point in it. This holds for every predicted displacement, time, load and positive step coefficient; a body with enough supports for statics always qualifies, and a free body can qualify too. For an explicit step the condition is that every allowed motion moves a quadrature point, which one-point quadrature can violate.", "quantifier": "all meshes, elements and quadrature rules with positive weights, 2D and 3D, moduli and densities, loads, times, predicted displacements, step coefficients, sets of held degrees of freedom and prescribed accelerations", "why_tests_cant": "Tests step a few bodies with a few step lengths; a mass or stiffness contribution that is lost in part of a mesh leaves the system singular, or gives a wrong but unique answer, only for other meshes, step lengths or supports.", "anchors": ["src/serac/physics/solid_mechanics.hpp: SolidMechanics, setMaterial, completeSetup, advanceTimestep", "src/serac/physics/materials/solid_material.hpp: LinearIsotropic", "src/serac/numerics/functional/functional.hpp: Functional::operator()"]}
{"id": "C95", "title": "Implicit heat conduction forgets its start and settles at the steady temperature, whatever the step lengths", "statement": "For linear heat conduction advanced by backward Euler, two runs with the same sources, fluxes, prescribed temperatures and steps, started from different temperatures, never move apart: the heat content norm of their difference does not grow, and the conduction of the difference falls at least like the inverse of the elapsed time, for steps of any lengths. With supplies and prescribed temperatures that do not change in time, and enough prescribed temperatures for a unique steady state, the temperature at every degree of freedom settles at the steady temperature of the steady solver from every start, and the time after which it is within a tolerance does not depend on how it is divided into steps.", "quantifier": "all meshes, elements and quadrature rules with positive weights, 2D and 3D, capacities and symmetric conductivities, sources, fluxes, cooling and prescribed temperatures, start temperatures, numbers and lengths of steps, tolerances", "why_tests_cant": "Tests run a few steps of one length from one start; a residual taken at the start of a step instead of its end, or a rate that is not the one of the step, is stable for short steps and grows for long ones.", "anchors": ["src/serac/physics/heat_transfer.hpp: HeatTransfer, setMaterial, setSource, setFluxBCs, completeSetup, advanceTimestep", "src/serac/numerics/odes.cpp: FirstOrderODE::Solve", "src/serac/physics/materials/thermal_material.hpp: LinearConductor, LinearIsotropicConductor"]}
{"id": "C96", "title": "Two dynamic runs of a linear elastic body under the same loads keep the energy of their difference", "statement": "For linear elastic material advanced by Newmark's method with enforcement of the prescribed displacements or of their rates, take two runs with the same loads, prescribed displacements and steps that start from different displacements and velocities, agreeing where displacements are prescribed in whichever of the two is enforced. Kinetic plus strain energy of the difference of the two runs is the same after every step as at the start, whatever the loads, the motion of the supports, the step lengths and their number. For a body with enough supports for statics and positive moduli and density, with displacements enforced, the difference of every displacement is therefore bounded for ever by a constant of the body times the energy of the initial difference: errors in the start are neither amplified nor forgotten.", "quantifier": "all meshes, elements and quadrature rules, 2D and 3D, moduli and densities, loads in time, prescribed motions of supports, start displacements and velocities, numbers and lengths of steps, solvers that solve the step equation", "why_tests_cant": "Tests follow one run for a few steps; an update that amplifies or damps differences slightly, or a solver whose answer depends on its history, shows only after many steps or for other step lengths.", "anchors": ["src/serac/physics/solid_mechanics.hpp: SolidMechanics, setMaterial, addBodyForce, setTraction, completeSetup, advanceTimestep", "src/serac/numerics/odes.cpp: SecondOrderODE::Step, SecondOrderODE::Solve", "src/serac/physics/materials/solid_material.hpp: LinearIsotropic"]}
{"id": "C97", "title": "Holding a part of the mesh by element attribute holds exactly the degrees of freedom of its elements", "statement": "Asked for the essential true degrees of freedom of a set of element attributes, for all components or for one component of the space, the library returns on every process, in ascending order and without repetition, exactly those of its true degrees of freedom that lie on some element with a chosen attribute, on this or any other process, in a wanted component. Degrees of freedom with reversed orientation and those shared between processes are included; none outside the chosen elements or of another component is. The union over processes does not depend on how the mesh is divided.", "quantifier": "all meshes, element types and attributes, orderings and numbers of components, sets of chosen attributes, components, signs of element degrees of freedom, numbers of processes and divisions of the mesh", "why_tests_cant": "Tests look at one small mesh on a few processes; a missed sign, a wrong component stride or a missing exchange between processes shows only for spaces with signed degrees of freedom, other orderings, or divisions where a held element and the owner of its node are on different processes.", "anchors": ["src/serac/physics/boundary_conditions/boundary_condition_helper.hpp: GetEssentialTrueDofsFromElementAttribute, GetEssentialVDofsFromElementAttribute", "src/serac/physics/boundary_conditions/boundary_condition_helper.cpp: mark_dofs"]}
