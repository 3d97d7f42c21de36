# Design of the Rocq model of serac

## 1. Trusted base

* Coq 8.16.1 kernel (and `coqchk`). No plugins of our own, no axioms of our own, no `Admitted`.
* Axioms that `Print Assumptions` may list, all from the standard library:
  `ClassicalDedekindReals.sig_not_dec`, `ClassicalDedekindReals.sig_forall_dec`,
  `FunctionalExtensionality.functional_extensionality_dep`, and (only where Coquelicot's
  derivative and integral lemmas are used) `Classical_Prop.classic` and the like. Theorems over `Z`, `nat`, `list`,
  `string` are closed under the global context. Section 6 has the list for each file of theorems.
* Libraries used: Coq standard library; Coquelicot (`is_derive`, `auto_derive`, `is_RInt`) for derivatives
  and integrals. Coquelicot adds no axioms of its own.
* The reading of the C++ by hand. Each model definition cites the file and lines it models.

## 2. What is modelled, and what is not

### Arithmetic and memory

* `double` is modelled by the exact reals `R`. Rounding, overflow and infinities are not modelled,
  except where the code's control flow depends on them: a non-finite residual norm in the nonlinear
  solvers is a distinct constructor (`None` of `num`), a division by zero in the trust region ratio
  gives `PlusInf`/`MinusInf`/`NaN`, and a zero divisor elsewhere is `None`/`UB`/`NotANumber`.
* Tabulated decimal constants are exact decimals (rationals): theorems about the quadrature tables are
  about the tabulated digits. In the cubic shape functions the literal for the square root of 5 is idealised
  to an exact `s` with `s * s = 5`. The octagon corner coordinates of the cylinder mesh are idealised to exact angles.
* `int`, `size_t` are `Z`/`nat` with no overflow, except the bit-packed `DoF` record, which is
  modelled on 64-bit values, and the 32-bit conversions that follow it.
* Undefined behaviour (out-of-range indexing, reading a dead variant alternative, dereferencing an
  empty pointer, a missing map key behind an iterator) is a distinct outcome, not a default value.
  A call that stops with an error is `Refused`. Singular Jacobians are `None`.

### Code outside the model

* MFEM, axom, Sidre, Inlet, Tribol, PETSc, SUNDIALS and MPI. Where serac relies on them, the documented behaviour
  is a parameter of the definition or a hypothesis of the theorem:
  * the MFEM second order integrators (`NewmarkSolver`, `BackwardEulerSolver`), `ODESolver::Step` times,
    `EliminateRowsCols`, `EliminateBC` are transcribed from their documentation, as the code depends on them;
  * a linear solver is a function; the theorems that need it to solve say so (`lin_ok`, `solves`);
  * Tribol: the gaps are a function of the displacement, given with each evaluation;
  * Sidre: a saved field is read back exactly; a missing file is a refusal;
  * Inlet: an input table is a finite map from keys to typed values;
  * `UniformRefinement` puts new vertices at midpoints;
  * the C library's `atan2`, `fmod`, `exp`, ... are the real functions.
* MPI: a single rank, except the prefix-sum offsets of contact (C31) and the reductions of C50, which range
  over any number of ranks.
* GPU and RAJA paths, profiling, logging, ParaView output, the command line and CMake.
* Time-integrator stages for other ODE solvers than Newmark, backward Euler: only their effect on the clock (C46).

### Reading order of the C++

`src/serac/physics` (base_physics, solid_mechanics, heat_transfer, contact, materials, boundary_conditions, state),
`src/serac/numerics` (functional, odes, equation_solver, solver_config, stdfunction), `src/serac/mesh`,
`src/serac/infrastructure` (variant, input).

## 3. Files

Each topic has a model file (definitions with citations, helper lemmas and proofs), some have a second file for
examples and witnesses (`*Ex.v`), and the property theorems are in `P_*.v` files which hold only the statements, each closed
with `exact lemma`, `Print Assumptions` beneath and a concrete `Example` beside it.

## 4. Plan for each property

| id | model | method |
|----|-------|--------|
| C01, C02, C04, C05 | `Ledger.v`, `LedgerAll.v`: time, cycle, min/max, timesteps, checkpoint lists; operations advance/reverse/reset/setState/query, outcome type with refusal and UB | refinement to a notebook over operation lists; invariants over every history; refuted for start cycle > 0 and for re-runs with other steps |
| C03 | `LedgerDisk.v`: file map and one-entry cache | refinement for queries of the current cycle, refutation otherwise |
| C06 | `Names.v`: strings | induction on strings |
| C07, C08 | `Domains.v`: sorted id lists, merge-based set operations, entity filters | induction on lists; refutations for kind loss and edges |
| C09 | `BCManager.v`: list of requests, attribute set, dof lists | induction over requests; refutation for a second component |
| C10 | `DofCodec.v`: 64-bit `N` arithmetic | `N` bit lemmas; refutation for sign/orientation |
| C11 | `LexIds.v` | nonlinear integer arithmetic, strict monotonicity |
| C12 | `Restriction.v` | sums over lists |
| C13 | `Csr.v` | sort/unique/scan invariants; refutation for trailing empty rows |
| C14, C16, C17 | `Kernels.v`, `FunctionalModel.v`, `FunctionalGrad.v`, `Assembly.v` | linear algebra over finite sums; induction over element and integral lists; `is_derive` |
| C15 | `Dual.v`: expression language over the dual operations | induction over expressions, `is_derive` |
| C18, C20 | `Tensor.v` | `ring`/`field`, finite sums for general n |
| C19 | `LU.v`, `LUDeriv.v`: the coded factorisation on functions of indices | algebra; refutation for a matrix with a late zero pivot |
| C21 | `ScalarSolve.v`, `ScalarSolveDeriv.v`: the coded Newton/bisection loop | loop invariant, implicit function derivative |
| C22, C41, C42, C47 | `Materials.v`, `MaterialFacts.v` | `is_derive`, matrix algebra |
| C23 | `Plasticity.v` | monotone hardening, return mapping algebra |
| C24, C48 | `Ode.v` | induction over steps with a solver hypothesis |
| C25, C26, C27 | `Adjoint.v`, `AdjointDeriv.v` | transposes, telescoping sums over steps, `is_derive` |
| C28, C29 | `Newton.v` | loop invariant over an outcome-valued residual oracle |
| C30 | `TrustRegion.v`, `TrustLoop.v` | inner-product algebra, loop invariants |
| C31, C49 | `Contact.v` | list prefix sums, invariant over reachable states |
| C32 | `QuadTables.v`, `Simplex.v`, `Quadrature.v` | fixed-point arithmetic on monomials checked by computation, lifted to every polynomial by linearity with explicit error bounds, and to integrals |
| C33 | `ShapeDefs.v`, `ShapeFacts.v`, `ShapeGrad.v`, `ShapeTensor.v` | `field`/`ring`, `auto_derive` |
| C34 | `SumFactor.v` | finite sums over arbitrary table sizes |
| C35, C52 | `ShapeAware.v`, `ShapeElem.v` | matrix algebra; refutation for 3D H(curl) and curved simplices |
| C36 | `StateMgr.v` | finite map state machine, invariant over operation lists |
| C37, C50 | `FEVector.v` | case analysis; induction over ranks |
| C38 | `Variant.v` | words and ownership, induction over assignments |
| C39, C40 | `Inputs.v`, `MatInputs.v` | case analysis, list induction |
| C43 | `Mesh.v`, `Ring.v` | real arithmetic, modular indices |
| C44 | `Polys.v` | induction on n, trigonometric identities |
| C45 | `BoundaryElim.v` | sums over index sets |
| C46 | `Timestep.v` | case analysis over integrators |
| C51 | `Conductors.v` | quadratic forms, `is_derive` in the temperature and in each parameter |
| C53 | `Driver.v`: the time loop of the executable with its outputs | induction over the loop; refutations for restarts at the end and non-positive steps |
| C54 | `Thermomech.v`: two bookkeeping models advanced in turn, wrapped materials | induction over histories, refutations for restart, checkpoints, user parameters and ignored inputs |
| C55 | `FromInput.v`: module constructors from input options | list induction over boundary-condition tables, refutations for missing entries |
| C56 | `EqSolver.v`: which solver is built, with which settings, for every build and every option or input table | case analysis over every option |
| C57 | `WeakForm.v`, `WeakFormWork.v`: the integrands of both modules summed over quadrature points | finite sums against constants, rotations and any test field |
| C58 | `SymEig*.v`, `Iso*.v`: the coded analytic eigendecomposition, isotropic functions and their derivatives | cubic and trigonometric identities, orthonormal frames, `is_derive` of coded divided differences; refutation for a matrix whose distinct eigenvalues are taken to be equal |
| C59 | `FiniteJ2*.v`, `Spectral.v` | return mapping in principal logarithms, spectral theorem for 3 by 3 |
| C60 | `LiquidCrystal*.v` | rotations and distribution tensors, energy derivative |
| C61 | `MatSqrt.v` | the coded Newton loop diagonalised by the spectral theorem; refutation for a large matrix, for which fifteen steps are too few |
| C62 | `Hcurl.v`, `HcurlSum.v`, `HcurlHex.v`, `HcurlFacts.v`, `HcurlSegment.v` | polynomial identities, line integrals of the shape functions, sum factorisation for arbitrary tables |
| C63 | `Piola.v` | chain rule, symmetric second derivatives |
| C64 | `Fit.v` | normal equations, completing the square |
| C65 | `ContactSolve.v`, `ContactNewton.v`: residual, Jacobian and step of contact problems, Tribol's gaps and blocks as parameters | case analysis of each dof for every evaluation history, `is_derive` on a neighbourhood where the active set is fixed; refutations by a one-spring problem |
| C66 | `MaterialTest.v`, `MaterialTestEx.v`: both drivers and find_root for any material as a partial function of state and input | histories by induction over the steps; exactness for materials affine in the lateral strains (one Newton step), Hooke constants for the linear material; a double root refutes it in general. |
| C67 | `Modules.v`, `ModulesFacts.v`, `ModulesRun.v`, `ModulesEx.v`: modules (fields, duals, parameters, clock) over the state manager of C36, with construct, step, setParameter, setShapeDisplacement, outputStateToDisk as calls of a program | invariant over all programs (registration, distinct names, meshes) gives the contents of every file; concrete programs refute restart, kept shapes, written adjoints and defined parameters. |
| C68 | `Energy.v`, `EnergySolid.v`, `EnergyRun.v`, `EnergyEx.v`, `EnergyHeat.v`, `EnergyHeatEx.v`: quadratic forms over the integrators of C24/C48; mass form, stiffness form and load vector of the residual evaluated by Functional (C57) | Krenk's identity for one Newmark step by algebra of symmetric forms, then induction over the run; the residual is split with the virtual-work theorem; momentum from the totals of C57. |
| C69 | `FrameResidual.v`, `FrameEx.v`: the residual of C57 at two configurations that differ by a rigid motion | Both evaluations are tested with nodal fields (virtual work); pointwise the Piola stress, the follower area vector, inertia and loads turn, and the rotation moves to the test field. |
| C70 | `Summary.v`, `SummaryRun.v`: the summary group as an association list, initialised and filled by a module, alone and inside the driver's loop; the norm is a parameter | induction over the saves and over the loop; refutations for a zero step, clashing names and a second module |
| C71 | `Cli.v`: options to actions of the executable; CLI11's splitting of argv and the file system are parameters | case analysis over all options, string lemmas for names and numbers |
| C72 | `PatchTest.v`, `PatchMesh.v`, `PatchHex.v`, `PatchGeom.v`, `PatchLoad.v`, `PatchSkin.v`, `PatchEx.v`, `PatchLoadEx.v`: the residual of C57 with affine nodal displacements; faces around a node with orientation | virtual work with the hat function of the node gives the stress times an integral of a shape gradient; for linear elements polynomial identities turn the integral into area vectors of the faces at the node, which cancel in pairs. The quadrature rule enters through its moments (sum of weights for simplices, degree one for quads, two for hexes) up to one common factor. |
| C73 | `QuasiStatic.v`, `QuasiNewton.v`, `QuasiTrust.v`, `QuasiBalance.v`, `QuasiEx.v`, `QuasiSupportEx.v`: advanceTimestep of a quasi-static solid around the functional of C16/C17, with the material buffers as memory; a nonlinear solver is any tree of residual and Jacobian requests (a script which ends with a displacement and a verdict) | evaluation without update leaves the material alone, so the solver sees pure functions; induction over steps for material history and independence of the solver; Newton with line search as one such solver, refining C28; force sums from C57. Three refutations (reset keeps material state, checkpoint file lags in its reactions, previous parameters are those of the first step). Time integration, contact and the reverse pass are elsewhere. |
| C74 | `FunctionalTotal.v`, `QuasiAdjoint.v`, `QuasiGradient.v`, `QuasiAdjointEx.v`, `Implicit.v`, `ImplicitRuns.v`, `ImplicitEx.v`: the quasi-static branch of reverseAdjointTimestep, adjoint loads, and the sensitivities of displacement and reaction objectives, on top of the runs of C73 with the buffers of the functional as memory | gradients of single arguments add up to the derivative along a curve of all arguments; induction over backward steps gives the sum of the sensitivities of single equilibria (C27); for memoryless materials and parameters that stay this is the derivative along the family of runs. Three refutations: material memory is ignored, the parameters at the end are used for all steps, reaction loads of earlier steps use the displacement of the step after. `Implicit.v` proves (Bolzano-Weierstrass on difference quotients) that solutions continuous near a value of equations with invertible tangent are differentiable there, so that continuity of the runs is enough; C77 and C78 use it too. |
| C75 | `ParallelModel.v`, `ParallelFacts.v`, `ParallelSum.v`, `ParallelMatrix.v`, `ParallelEx.v`, `ParallelQoiEx.v`: evaluation, action, assembly and QoI gradient of a functional run by several processes, each with its part of the mesh, its own numbering and the integrals which survive the guards for empty parts; prolongation rows per process; MPI and hypre reductions as sums over processes | each process's work against a column of the prolongation is a sum over its elements; the sums of the parts are a permutation of the sum over the whole mesh; induction over processes and over histories with the relation that a process remembers at its elements what the undivided program remembers there; matrices through their action on unit vectors. Assembly on a process without elements reads entry 0 of an empty vector (refuted) |
| C76 | `Transient.v`, `TransientFacts.v`, `TransientEx.v`: the dynamic residual and Jacobian of completeSetup, SecondOrderODE::Solve and FirstOrderODE::Solve with their boundary treatment (from `Ode.v`), Newmark and backward Euler steps of advanceTimestep, transient and steady heat steps, on the functional of `FunctionalModel.v` with its material state; nonlinear solvers are arbitrary interaction trees as in C73. One rank, reals. Central difference and generalised-alpha integrators are covered abstractly by C24 only. | an evaluation without update leaves material state alone, so the solver sees pure functions; a trustworthy solver then gives the balance; update formulas by algebra; start at a time other than 0 refuted |
| C77 | `JointRate.v`, `HeatBack.v`, `HeatGradient.v`, `HeatBackEx.v`, `SteadyBack.v`, `SteadyBackEx.v`: setAdjointLoad, the transient branch and the quasi-static branch of reverseAdjointTimestep, computeTimestepSensitivity and the initial condition sensitivity of HeatTransfer, on top of the runs of C76, with checkpoints, step sizes, time and the buffers of the functional | the three assembled gradients of one state are its joint derivative; induction over backward steps shows that the pass is the recursion of C26 on the linearised steps; C26's gradient theorem then applies to the family of runs. Material state never changes in a heat run, so any material. One rank, reals. |
| C78 | `MotionBack.v`, `MotionGradient.v`, `MotionBackEx.v`: setAdjointLoad, the dynamic branch of reverseAdjointTimestep with adjoint_integrate, computeTimestepSensitivity and computeInitialConditionSensitivity of SolidMechanics, on top of the dynamic runs of C76, with checkpoints, the two step sizes each backward step uses, time and the buffers of the functional | induction over backward steps shows that the pass is the recursion of C25 on the linearised steps; the update formulas and reactions of the forward run (C76) make the family of runs a family in the sense of C25's gradient theorem, which then applies. Materials with memory are excluded (C74_memory_refuted), and so are velocity objectives and a first step of nonzero length, for which C25 refutes the claim. |
| C79 | Programs.v: a program asks for evaluations of a residual and for assembled derivatives, and goes on with what it gets; run on one process, or on several over ParallelModel.v. ProgramRuns.v, ProgramBack.v: the steps and reverse passes of C73, C74, C76, C77, C78 as such programs. Exact arithmetic; linear algebra and solvers work on whole true-dof vectors; every process has elements (C75_empty_process_refuted says what happens otherwise) | induction over programs with C75 at every request; on one process the programs are the models of C73, C74, C76, C77, C78 by unfolding |
| C80 | `QBuffer.v`, `QBufferEx.v`: material-state buffers as the flat arrays they are, with the row length the module chose and the number of points the functional's rule has; integrals hold buffers, possibly the same one; reading past the end is undefined behaviour | the slots of distinct points differ when rows are long enough, so the loop over points refines the separate states of `FunctionalModel.v`; induction over geometries, integrals and histories; counterexamples for a parameter field of higher order and for a buffer given to two domains |
| C81 | `ThermoRun.v`, `ThermoRunEx.v`: the coupled advanceTimestep around the thermal and solid steps of `Transient.v` and `QuasiStatic.v`, on the residual functionals, each field being copied into the other's first parameter | the two halves of a step are separated and the balance theorems of C73 and C76 applied to each with the field in force; induction over loads for whole runs; a bar whose conduction depends on displacement shows that heat is not balanced at the end of the step |
| C82 | Traced.v, TracedEx.v, TracedSolid.v, TracedSolidEx.v, TracedInv.v, TracedHeat.v, TracedHeatEx.v: seeding of one argument with unit directions (promoted), q-functions whose outputs and stored derivatives are given by expressions over the overloads of dual.hpp (written), points where no operation on varying numbers lacks a derivative (regular); the elastic materials, conductors and the integrands of solid mechanics and heat transfer as such expressions (solid_expr, heat_expr), and the inverse of a matrix of duals with its own rule (dual_inv) | The gradient of an expression on dual numbers is a fixed linear combination of the gradients of its variables (induction over the expression, one lemma per overload); with the exactness of dual numbers along curves (C15) and uniqueness of derivatives this gives the hypothesis on automatic differentiation of C16, C73, C74, C76-C78 |
| C83 | Traces.v, TracesTurn.v, TracesMesh.v: the discontinuous branch of GetFaceDofs with its loops, its tables (LexIds.v), orientation handling in two and three dimensions and the copy into rows; the shape functions of the L2 elements including order zero. mfem's reports (faces of the mesh, adjacent elements, sides, orientations, element dofs) are inputs with the guarantees `proper_mesh` and `proper_vertices`; the H1 branch takes its dofs from mfem and is not modelled | for each side and each orientation the trace is an identity between shape functions (polynomial identities for simplices, one-dimensional facts for products); loops by induction over faces and elements; places in space are the first-order case of the same identity |
| C84 | `MeshInput.v`, `MeshInputFacts.v`, `MeshInputEx.v`, `MeshRegion.v`: the mesh block of the input file, FromInlet<InputOptions>, findMeshFilePath, buildParallelMesh, refineAndDistribute, the loops of buildDiskMesh and buildBallMesh on real elements, and the driver's use of them. mfem's Cartesian meshes, uniform refinement of cells and division among processes are modelled on lists of elements given by their corners; numbering, orientation, attributes and the boundary elements of boxes are not, nor is the content of mesh files. | refinement of a product of intervals is the product of the halved intervals up to order; refining commutes with dividing a list among ranks; every corner of a refined simplex is reached by midpoints, so that C43's facts about squish and convexity of the ball apply; case analysis over the entries of the block decides which blocks are accepted. Refuted: a box with elements but no size along z ends in an uncaught exception, numbers of elements are not checked, contradicting entries are ignored, refining a disk leaves its boundary polygonal. |
| C85 | Pressure.v, PressureRun.v, PressureBody.v, PressureEx.v: the pressure terms of WeakForm.v on linear boundary elements; surfaces are lists of corner cycles, closed when every edge is also run through backwards; enclosed volume as a sum of cones | the work of the pressure on a face is the change of its cone plus a sum over its edges that is odd in their direction (ring identities per face shape); sums over closed surfaces cancel by permutation; element volumes by the divergence identities of C72 |
| C86 | Isotropic.v, IsotropicProof.v: values of seven kinds (zero, number, vector, matrix, rank 4, isotropic of rank 2 and 4, and the isotropic tensors with a tensor inside that `tensor * isotropic` makes); the overload table as functions on kinds, a missing or ambiguous overload a distinct outcome; specification: a typed meaning in index notation. Rank 3 and dual entries not modelled | induction over the meaning of the expression; the products `tensor * isotropic` refuted by antisym(A * I) and dot(inv(A * I), x) |
| C87 | StoredEnergy.v (specification: what it means that a term stores an energy, the energy of the body as a quadrature sum, the potential under the loads), StoredEnergyUse.v, StoredEnergyEx.v; the residual is the one of WeakForm.v, WeakFormPhysics.v and FunctionalModel.v | the virtual work identity turns the nodal forces into a quadrature sum of powers, each of which is the derivative of the stored energy density at the point (chain rule through the interpolated gradient; material facts of C22); work on paths by the fundamental theorem of calculus, equilibria and motions from the slope, minima from the quadratic form; no energy exists for the small-strain law in the finite-strain residual because two ways to stretch a square cost different work. Loads that follow the deformation are left out here (a closed pressure: C85); that the power is continuous along the path is a hypothesis |
| C88 | PetscAdapters.v (specification: the solve as asked, the linear systems of a run, halved steps), PetscAdaptersUse.v, PetscAdaptersEx.v; the options and the built solvers are those of EqSolver.v | invariants over histories of setOperator, linear and nonlinear solves of what the solver handles hold; induction on the number of allowed failures for the back-off. PETSc's handles are records of the settings they hold, PETSc's algorithms, MATNEST block systems, the space dependent preconditioners and command line options are not modelled; hypre support in PETSc is assumed. The linear tolerances reach the handle only through a linear solve of the physics module (refuted for runs without one), and the minimum number of iterations counts only as one (refuted) |
| C89 | SymmetricTangent.v (specification: what it means that a material has a tangent, when it is symmetric, the rate of the nodal forces), SymmetricMaterials.v (the tangents of the elastic laws), SymmetricAssembled.v, SymmetricEx.v; the matrix is the one assembled by QuasiStatic.v and Assembly.v from integrands written with dual numbers (TracedSolid.v) | the assembled matrix is the derivative of the nodal forces (C82); the virtual work identity turns that derivative into a quadrature sum of material tangents, whose symmetry is shown law by law through the derivative of the first Piola stress; for any material with a stored energy by Schwarz's theorem. The small-strain law in the finite-strain residual is refuted. Follower pressures and materials with state are left out |
| C90 | StiffBody.v (specification: displacements without strain, materials which resist every strain, equilibrium, supports; the nodal forces are those of WeakForm.v and FunctionalModel.v), StiffMesh.v (cells linked across edges or faces, clamped nodes), StiffEx.v | the virtual work identity makes the nodal forces affine in the displacement with the quadrature sum of the strain energy as quadratic form; the form is positive definite on the free degrees of freedom exactly when the body is supported, and a definite form is solvable (elimination by induction over the number of free degrees of freedom); on linear simplices a displacement without strain is a rigid motion of each cell, the same one across a shared edge or face, and zero where enough nodes are clamped. That the nodal forces can be evaluated at every displacement is a hypothesis (met by every linear elastic term on elements that are not degenerate, EnergyEx.v) |
| C91 | HeatUnique.v (specification: level and cold temperatures, steady temperature, answer of an implicit step; the residual is that of WeakForm.v and FunctionalModel.v), HeatMesh.v (nodes reached through elements), HeatMeshEx.v | the virtual work identity (C68) gives the capacity and conductivity forms; the conductivity form vanishes exactly on level temperatures and the capacity form exactly on those zero at the quadrature points; a nonnegative symmetric form has exactly one solution for every right hand side when no null vector vanishes at the held degrees of freedom, and conversely; on linear simplices a level temperature is the same at the corners of an element. That the residual can be evaluated is a hypothesis (met on elements that are not degenerate, EnergyHeatEx.v) |
| C92 | NewtonLinear.v (specification: linear integrands, elements that are not degenerate, positive definite matrices; the code is that of TracedSolid.v, Assembly.v, BoundaryElim.v, QuasiStatic.v and Newton.v), NewtonLinearEx.v | the nodal forces are affine in the displacement (C90) and their derivative is the assembled matrix (C82), so its entries are those of the strain energy; elimination keeps the energy of the free displacements and adds squares of the held ones; the step of the Newton model then lands on zero residual, which every line search accepts at once. Exact arithmetic and an exact linear solver are hypotheses; following loads and large deformations are excluded |
| C93 | LinearRun.v (specification: exact linear solvers, plain loads; the code is that of QuasiStatic.v and QuasiNewton.v), LinearRunEx.v | the step of C73 hands Newton's method a start with the prescribed values; C92 then gives equilibrium after at most one iteration; the strain energy of linear material does not read the material state, so equilibria of different runs at the same time coincide by C90. Exact arithmetic, an exact linear solver and a zero absolute tolerance are hypotheses; with a positive tolerance C73 bounds the residual |
| C94 | MotionUnique.v (specification: dense material, motions that no quadrature point sees, answers of a step; the code is that of WeakForm.v and FunctionalModel.v), MotionUniqueEx.v | the power balance of C68 with unit velocities gives each entry of the residual as mass form plus stiffness form minus load; mass plus c0 times stiffness is a symmetric form, non-negative because every quadrature point contributes a non-negative amount; the uniqueness argument of C91 for such forms then applies. The equation is that of solid_mechanics.hpp:1172-1186; existence and uniqueness of its solution are proved, convergence of the solver is not (for quasi-static steps see C92) |
| C95 | HeatDecay.v (specification: implicit steps and runs, elapsed time, constant supplies; the code is the backward Euler integrator of Ode.v and the residual of EnergyHeat.v), HeatDecayEx.v | the difference of two runs satisfies the equation without supplies; tested with the new difference it bounds capacity plus twice the step times conduction by the old capacity, tested with the rate it bounds the new conduction by the old; induction over the steps; a steady temperature (C91) is a run with rate zero; for anchored bodies each nodal value is represented by the conduction form (existence part of C91), so Cauchy-Schwarz bounds it. Direct enforcement of the prescribed temperatures, exact arithmetic and a solver that meets the contract of C48 are assumed |
| C96 | MotionApart.v (specification: states of two runs side by side; the code is the Newmark integrator of Ode.v on the residual of WeakForm.v and FunctionalModel.v), MotionApartEx.v | the difference of two runs is a trajectory of the same body without loads and with supports at rest, by linearity of the residual (C68) and induction over the steps; energy conservation of C68 applies to it; for supported bodies each displacement is bounded by the stiffness form (as in C95) and the mass form is non-negative (C94). Enforcement of values or of rates (the bound on displacements: values), beta = 1/4, gamma = 1/2, exact arithmetic and solvers that meet the contract of C48 are assumed |
| C97 | ElementEssential.v (boundary_condition_helper.cpp whole; MFEM's dof numbering, element dof lists, Synchronize, restriction matrix and MarkerToList are models of the documented behaviour, not in /repo) | induction over elements and degrees of freedom gives the marks of one process; the exchange is a disjunction over copies with the same global number; the list is a filtered range. A read of the attribute array or a write of the marks out of range is an error outcome. Refuted when the component is not smaller than the number of components, which the code does not check; the theorems assume it |

Where the faithful model violates the property, the theorem is named `..._refuted` and proves the
existence of a violating input; the part that does hold is proved as `..._partial` or by an unsuffixed theorem when it
covers one half of the property completely.

## 5. Testing the theorems

`seeded/LOG.jsonl` records edits of the model in a scratch copy: every dependent file is recompiled, a failing proof is replaced
by an admission, and a theorem counts as failing when its `Print Assumptions` then shows an admitted lemma. Edits
under which no theorem failed led to new or stronger theorems, or are explained there.

## 6. Axioms, by file of theorems

* `P_Adjoint.v` (C27_adjoint_equations, C26_stale_load_refuted, C26_rate_control_refuted, C25_velocity_objective_refuted, C25_first_step_refuted): `ClassicalDedekindReals.sig_forall_dec`, `FunctionalExtensionality.functional_extensionality_dep`
* `P_Adjoint.v` (C27_gradient, C27_reactions, C26_gradient, C25_gradient_partial): `ClassicalDedekindReals.sig_forall_dec`, `ClassicalDedekindReals.sig_not_dec`, `FunctionalExtensionality.functional_extensionality_dep`
* `P_BCs.v` (C06_remove_after_add, C06_no_collision, C06_parameter_lookup, C06_unknown_parameter_refused, C06_parameter_names, C09_reported_dofs, C09_nothing_dropped_partial, C09_second_component_refuted, C09_last_condition_decides, C09_other_dofs_untouched, C09_by_position): closed under the global context
* `P_BoundaryElim.v` (C45_one_condition, C45_all_conditions, C45_newton, C45_warm_start, C45_without_warm_start): `ClassicalDedekindReals.sig_forall_dec`, `FunctionalExtensionality.functional_extensionality_dep`
* `P_Cli.v` (C71_inspection, C71_simulation, C71_contained, C71_accepted, C71_defined): `ClassicalDedekindReals.sig_forall_dec`
* `P_Cli.v` (C71_refused, C71_default_output, C71_printed, C71_print_unused_refuted): closed under the global context
* `P_Conductors.v` (C51_isotropic, C51_isotropic_accepts, C51_temperature_dependent, C51_accepts_positive, C51_conductor2_partial, C51_conductor3_partial, C51_conductor2_refuted, C51_conductor3_refuted, C51_fourier, C41_conductor_partial, C41_temperature_dependent_conductor, C41_conductor_refuted): `ClassicalDedekindReals.sig_forall_dec`, `FunctionalExtensionality.functional_extensionality_dep`
* `P_Contact.v` (C31_merge, C31_split, C31_roundtrip, C31_inactive, C31_identity_block_partial, C31_identity_block_refuted, C31_stale_offsets_refuted, C49_history_refuted, C49_tension_refuted, C49_settles_partial, C49_no_tension_partial): `ClassicalDedekindReals.sig_forall_dec`, `FunctionalExtensionality.functional_extensionality_dep`
* `P_Contact.v` (C31_zeroing): `ClassicalDedekindReals.sig_forall_dec`
* `P_Contact.v` (C31_rank_offsets, C31_tied_fixed_partial, C31_tied_markers_refuted, C31_tied_always_undefined): closed under the global context
* `P_ContactSolve.v` (C65_contact_conditions, C65_balance_partial, C65_separation_refuted, C65_penalty_balance_partial, C65_penalty_time_refuted, C65_correction): `ClassicalDedekindReals.sig_forall_dec`, `FunctionalExtensionality.functional_extensionality_dep`
* `P_ContactSolve.v` (C65_jacobian_forces, C65_jacobian_gaps): `ClassicalDedekindReals.sig_forall_dec`, `ClassicalDedekindReals.sig_not_dec`, `Classical_Prop.classic`, `FunctionalExtensionality.functional_extensionality_dep`
* `P_Dofs.v` (C10_record_round_trip_partial, C10_sign_refuted, C10_index_with_orientation_refuted, C10_vector_dofs_bijection, C10_vector_dof_formula, C10_reversed_dof_refuted, C11_triangle, C11_tetrahedron, C11_square, C11_cube, C11_triangle_sides, C11_square_sides, C11_tetrahedron_faces, C11_cube_faces, C11_segment_permutations, C11_triangle_permutations, C11_square_permutations, C11_triangle_orientation, C11_square_orientation, C12_ids_in_range, C12_ids_are_vector_dofs, C12_block_offsets, C12_block_esize_refuted): closed under the global context
* `P_Dofs.v` (C12_scatter_is_transpose_of_gather, C12_scatter_entries, C12_blocks_adjoint): `ClassicalDedekindReals.sig_forall_dec`, `FunctionalExtensionality.functional_extensionality_dep`
* `P_Dofs.v` (C12_gather_entries, C12_hcurl_gather_refuted): `ClassicalDedekindReals.sig_forall_dec`
* `P_Domains.v` (C07_nested_set_expressions, C07_result_kind_refuted, C07_union_has_no_dofs_refuted, C08_elements, C08_boundary_elements, C08_faces, C08_vertices, C08_element_dofs, C08_boundary_dofs, C08_edges_partial, C08_edges_refuted, C08_edge_dofs_refuted, C08_entire_domain, C08_entire_boundary): closed under the global context
* `P_Driver.v` (C53_stops, C53_steps, C53_never_past_the_end, C53_number_of_steps, C53_outputs_partial, C53_restart, C53_restart_at_end_refuted, C53_nonpositive_dt_refuted): `ClassicalDedekindReals.sig_forall_dec`, `FunctionalExtensionality.functional_extensionality_dep`
* `P_Driver.v` (C53_module, C53_module_exists): closed under the global context
* `P_Dual.v` (C15_exact_derivative_partial, C15_seeded_inputs_partial, C15_max_min_right_when_differentiable, C15_abs_right_when_differentiable, C15_pow_zero_exponent_refuted, C15_pow_zero_base_refuted): `ClassicalDedekindReals.sig_forall_dec`, `ClassicalDedekindReals.sig_not_dec`, `Classical_Prop.classic`, `FunctionalExtensionality.functional_extensionality_dep`
* `P_ElementEssential.v` (C97_marks, C97_lists, C97_complete, C97_division, C97_component_refuted): closed under the global context
* `P_Energy.v` (C68_elastic_residual, C68_elastic_problem, C68_momentum): `ClassicalDedekindReals.sig_forall_dec`, `ClassicalDedekindReals.sig_not_dec`, `FunctionalExtensionality.functional_extensionality_dep`
* `P_Energy.v` (C68_elastic_positive, C68_isotropic, C68_work, C68_conserved_direct, C68_conserved_rate, C68_stable, C68_stable_needs_beta, C68_backward_euler, C68_diffusion): `ClassicalDedekindReals.sig_forall_dec`, `FunctionalExtensionality.functional_extensionality_dep`
* `P_EnergyHeat.v` (C68_heat_residual, C68_heat_positive, C68_heat_problem, C68_heat_decay): `ClassicalDedekindReals.sig_forall_dec`, `ClassicalDedekindReals.sig_not_dec`, `FunctionalExtensionality.functional_extensionality_dep`
* `P_EnergyHeat.v` (C68_fourier, C68_cooling): `ClassicalDedekindReals.sig_forall_dec`, `FunctionalExtensionality.functional_extensionality_dep`
* `P_EqSolver.v` (C56_built_partial, C56_as_requested, C56_no_preconditioner_refuted, C56_preconditioner_print_refuted, C56_solve, C56_monolithic_accepts): closed under the global context
* `P_EqSolver.v` (C56_iterative_input, C56_linear_type, C56_nonlinear_input, C56_input_builds, C56_input_defined, C56_documented_names_refuted, C56_reachable_from_input_refuted): `ClassicalDedekindReals.sig_forall_dec`, `FunctionalExtensionality.functional_extensionality_dep`
* `P_EqSolver.v` (C56_monolithic): `ClassicalDedekindReals.sig_forall_dec`
* `P_FEVector.v` (C37_state_construct, C37_dual_construct, C37_assign_name_refuted, C37_dual_form_refuted, C37_swap_duals_refuted, C37_vector_size_refuted): `ClassicalDedekindReals.sig_forall_dec`
* `P_FEVector.v` (C37_vector_move_assign, C37_assign_partial, C37_assign_checks, C37_swap_states_refuted): closed under the global context
* `P_FEVector.v` (C37_dual_move_assign_refuted, C50_average, C50_maximum, C50_minimum, C50_inner_product): `ClassicalDedekindReals.sig_forall_dec`, `FunctionalExtensionality.functional_extensionality_dep`
* `P_FiniteJ2.v` (C59_returns, C59_history, C59_frame, C59_rigid, C59_elastic_partial, C59_symmetric_partial, C59_flow_partial, C59_yield_partial, C59_repeat_partial, C59_linear_converges): `ClassicalDedekindReals.sig_forall_dec`, `ClassicalDedekindReals.sig_not_dec`, `Classical_Prop.classic`, `FunctionalExtensionality.functional_extensionality_dep`
* `P_Fit.v` (C64_error, C64_best, C64_consistent, C64_exact): `ClassicalDedekindReals.sig_forall_dec`, `FunctionalExtensionality.functional_extensionality_dep`
* `P_Frame.v` (C69_rigid_motion, C69_equilibrium, C69_needs_nonlinear_geometry): `ClassicalDedekindReals.sig_forall_dec`, `ClassicalDedekindReals.sig_not_dec`, `FunctionalExtensionality.functional_extensionality_dep`
* `P_Frame.v` (C69_materials): `ClassicalDedekindReals.sig_forall_dec`, `ClassicalDedekindReals.sig_not_dec`, `Classical_Prop.classic`, `FunctionalExtensionality.functional_extensionality_dep`
* `P_FromInput.v` (C55_heat_conditions, C55_heat_any_order, C55_heat_first_by_name, C55_heat_accepted, C55_solid_conditions, C55_solid_accepted, C55_solid_defined, C55_solid_any_order_partial, C55_heat_materials_partial, C55_heat_material_refuted, C55_solid_materials, C55_heat_integrator, C55_solid_integrator): closed under the global context
* `P_FromInput.v` (C55_heat_component_refuted, C55_solid_any_order_refuted, C55_initial_checkpoint_refuted, C55_initial_by_set_state): `ClassicalDedekindReals.sig_forall_dec`
* `P_Functional.v` (C13_table_for_mesh, C13_valid_when_last_row_coupled, C13_trailing_row_refuted, C13_no_entries_refuted): closed under the global context
* `P_Functional.v` (C14_assembled_is_action, C14_true_dofs, C14_quantity_of_interest, C16_value_independent_of_differentiation, C16_held_gradient_refuted, C16_qoi_value_overwritten_refuted, C17_no_update_no_change, C17_trial_evaluations_invisible, C17_update_stores_material_output, C17_other_points_untouched): `ClassicalDedekindReals.sig_forall_dec`, `FunctionalExtensionality.functional_extensionality_dep`
* `P_Functional.v` (C16_gradient_is_derivative): `ClassicalDedekindReals.sig_forall_dec`, `ClassicalDedekindReals.sig_not_dec`, `FunctionalExtensionality.functional_extensionality_dep`
* `P_Functional.v` (C16_repeated_argument_refuted): `ClassicalDedekindReals.sig_forall_dec`, `ClassicalDedekindReals.sig_not_dec`, `Classical_Prop.classic`, `FunctionalExtensionality.functional_extensionality_dep`
* `P_Hcurl.v` (C62_quad_interpolate, C62_hex_interpolate, C62_quad_integrate, C62_hex_integrate, C62_quad_apply, C62_hex_apply, C62_quad_transpose, C62_hex_transpose, C62_quad_matrix, C62_hex_matrix, C62_quad_trace, C62_hex_trace, C62_quad_nodes, C62_hex_nodes, C62_segment_nodes, C62_circulation): `ClassicalDedekindReals.sig_forall_dec`, `FunctionalExtensionality.functional_extensionality_dep`
* `P_Hcurl.v` (C62_quad_curl, C62_hex_curl, C62_quad_gradient, C62_hex_gradient, C62_segment_derivative): `ClassicalDedekindReals.sig_forall_dec`, `ClassicalDedekindReals.sig_not_dec`, `Classical_Prop.classic`, `FunctionalExtensionality.functional_extensionality_dep`
* `P_HeatBack.v` (C77_joint_derivative, C77_heat_gradient_partial): `ClassicalDedekindReals.sig_forall_dec`, `ClassicalDedekindReals.sig_not_dec`, `FunctionalExtensionality.functional_extensionality_dep`
* `P_HeatBack.v` (C77_heat_pass): `ClassicalDedekindReals.sig_forall_dec`, `FunctionalExtensionality.functional_extensionality_dep`
* `P_HeatDecay.v` (C95_code): `ClassicalDedekindReals.sig_forall_dec`, `FunctionalExtensionality.functional_extensionality_dep`
* `P_HeatDecay.v` (C95_forgets, C95_settles, C95_exist): `ClassicalDedekindReals.sig_forall_dec`, `ClassicalDedekindReals.sig_not_dec`, `FunctionalExtensionality.functional_extensionality_dep`
* `P_HeatUnique.v` (C91_steady, C91_step, C91_one, C91_differ): `ClassicalDedekindReals.sig_forall_dec`, `ClassicalDedekindReals.sig_not_dec`, `FunctionalExtensionality.functional_extensionality_dep`
* `P_HeatUnique.v` (C91_fourier): `ClassicalDedekindReals.sig_forall_dec`, `FunctionalExtensionality.functional_extensionality_dep`
* `P_Implicit.v` (C74_gradient_continuous_partial, C74_last_reaction_continuous_partial, C77_heat_gradient_continuous_partial, C78_motion_gradient_continuous_partial): `ClassicalDedekindReals.sig_forall_dec`, `ClassicalDedekindReals.sig_not_dec`, `FunctionalExtensionality.functional_extensionality_dep`
* `P_Inputs.v` (C39_exactly_one, C39_largest, C40_voce, C40_power_law_partial, C40_j2, C40_elastic_partial, C40_linear_hardening_refuted, C40_isotropic_conductor, C40_conductor, C40_build_solid, C40_build_thermal): closed under the global context
* `P_Inputs.v` (C39_constant, C39_function, C39_vector_constant, C39_vector_function, C39_piecewise_partial, C39_vector_piecewise_partial, C39_nonpositive_attribute_refuted, C39_short_vector_refuted, C39_vector_gap_refuted, C39_above_largest_refuted, C40_power_law_refuted, C40_elastic_refuted, C39_kinds): `ClassicalDedekindReals.sig_forall_dec`
* `P_Isotropic.v` (C86_partial, C86_dense, C86_nonvacuous, C86_dense_nonvacuous, C86_quotient, C86_inverse, C86_refuted, C86_inverse_refuted): `ClassicalDedekindReals.sig_forall_dec`, `ClassicalDedekindReals.sig_not_dec`, `FunctionalExtensionality.functional_extensionality_dep`
* `P_Ledger.v` (C01_time_and_cycle_forward_backward, C01_no_reverse_before_start, C01_C02_history_refines_notebook_partial, C01_rerun_same_steps, C01_backward_interval, C01_arbitrary_interleaving_refuted, C02_checkpoint_after_rerun_refuted, C03_disk_query_refuted, C04_forward_clock_any_start_partial, C04_restart_cycle_refuted, C46_exact_clock_partial, C46_clock_refuted, C46_forward_euler_clock_refuted): `ClassicalDedekindReals.sig_forall_dec`, `FunctionalExtensionality.functional_extensionality_dep`
* `P_Ledger.v` (C01_one_step_per_cycle, C02_out_of_range_query_refuted, C03_disk_agrees_on_current_cycle_partial, C05_reset_forgets_partial): `ClassicalDedekindReals.sig_forall_dec`
* `P_Ledger.v` (C02_quasistatic_velocity_refuted, C03_disk_get_states_effect_refuted, C03_disk_reverse_keeps_fields_refuted, C03_C05_disk_cache_after_reset_refuted): closed under the global context
* `P_LinearRun.v` (C93_step, C93_run, C93_history): `ClassicalDedekindReals.sig_forall_dec`, `ClassicalDedekindReals.sig_not_dec`, `Classical_Prop.classic`, `FunctionalExtensionality.functional_extensionality_dep`
* `P_LiquidCrystal.v` (C60_bertoldi_accepted, C60_brighenti_accepted, C61_sqrt_refuted): `ClassicalDedekindReals.sig_forall_dec`, `FunctionalExtensionality.functional_extensionality_dep`
* `P_LiquidCrystal.v` (C60_bertoldi_energy, C60_bertoldi_symmetric, C60_bertoldi_objective, C60_bertoldi_rest, C60_bertoldi_hooke, C60_bertoldi_incompressible_refuted): `ClassicalDedekindReals.sig_forall_dec`, `ClassicalDedekindReals.sig_not_dec`, `FunctionalExtensionality.functional_extensionality_dep`
* `P_LiquidCrystal.v` (C60_brighenti_symmetric, C60_brighenti_repeat, C60_brighenti_heating, C60_brighenti_temperature_path, C60_brighenti_reference, C60_brighenti_rotation_partial, C60_brighenti_rotation_refuted, C60_brighenti_first_call_refuted, C60_brighenti_segments_refuted, C61_sqrt_shape, C61_sqrt_partial, C61_polar_partial): `ClassicalDedekindReals.sig_forall_dec`, `ClassicalDedekindReals.sig_not_dec`, `Classical_Prop.classic`, `FunctionalExtensionality.functional_extensionality_dep`
* `P_MaterialTest.v` (C66_point_history, C66_point_answers): `ClassicalDedekindReals.sig_forall_dec`, `FunctionalExtensionality.functional_extensionality_dep`
* `P_MaterialTest.v` (C66_uniaxial_history, C66_find_root, C66_lateral_stress_partial, C66_linear_isotropic, C66_lateral_stress_refuted): `ClassicalDedekindReals.sig_forall_dec`, `ClassicalDedekindReals.sig_not_dec`, `FunctionalExtensionality.functional_extensionality_dep`
* `P_Materials.v` (C22_linear_energy, C22_stvk_energy, C22_thermoelastic_flux, C22_linear_zero, C22_stvk_zero, C22_thermoelastic_zero, C22_linear_symmetric, C22_stvk_symmetric, C22_thermoelastic_symmetric, C22_stvk_objective, C22_thermoelastic_objective, C22_stvk_isotropic, C42_flux_is_piola, C42_flux_linear, C42_conversions_agree_partial, C42_conversions_agree_refuted, C41_linear_3d_partial, C41_thermoelastic, C41_linear_2d_refuted, C47_stvk_small_strain, C47_stvk_3d_partial, C47_stvk_2d_refuted): `ClassicalDedekindReals.sig_forall_dec`, `FunctionalExtensionality.functional_extensionality_dep`
* `P_Materials.v` (C22_neo_energy, C22_thermoelastic_energy, C22_thermoelastic_entropy, C22_thermoelastic_source, C22_neo_zero, C22_neo_symmetric, C22_neo_objective, C22_neo_isotropic, C22_neo_defined, C41_neo_3d_partial, C41_thermoelastic_scaled, C47_neo_small_strain): `ClassicalDedekindReals.sig_forall_dec`, `ClassicalDedekindReals.sig_not_dec`, `Classical_Prop.classic`, `FunctionalExtensionality.functional_extensionality_dep`
* `P_Mesh.v` (C43_squish_norm, C43_squish_into, C43_squish_onto_partial, C43_squish_one_to_one_partial, C43_squish_center, C43_disk, C43_ball, C43_corners, C43_quarter_cylinder): `ClassicalDedekindReals.sig_forall_dec`, `ClassicalDedekindReals.sig_not_dec`, `FunctionalExtensionality.functional_extensionality_dep`
* `P_Mesh.v` (C43_coarse, C43_counts, C43_connectivity, C43_distinct, C43_neighbours, C43_closes, C43_boundary_orientation, C43_open_ends_refuted, C43_one_sector_refuted): closed under the global context
* `P_Mesh.v` (C43_full_ring, C43_open_ring_partial, C43_open_ring_refuted, C43_cylinder): `ClassicalDedekindReals.sig_forall_dec`, `ClassicalDedekindReals.sig_not_dec`, `Classical_Prop.classic`, `FunctionalExtensionality.functional_extensionality_dep`
* `P_MeshInput.v` (C84_box, C84_ball_partial, C84_refined_disk_refuted, C84_file, C84_file_number, C84_file_region, C84_any_processes, C84_outcomes, C84_forgotten_size_refuted, C84_unused_size_refuted, C84_negative_levels_refuted): `ClassicalDedekindReals.sig_forall_dec`, `ClassicalDedekindReals.sig_not_dec`, `FunctionalExtensionality.functional_extensionality_dep`
* `P_MeshInput.v` (C84_no_elements_refuted): closed under the global context
* `P_Modules.v` (C67_output, C67_names_apart, C67_two_modules, C67_construct_partial, C67_shape): `ClassicalDedekindReals.sig_forall_dec`, `Classical_Prop.classic`
* `P_Modules.v` (C67_parameter): closed under the global context
* `P_Modules.v` (C67_others, C67_restart_refuted, C67_checkpoint_file_refuted, C67_shape_kept_refuted, C67_adjoint_written_refuted, C67_parameter_default_refuted): `ClassicalDedekindReals.sig_forall_dec`
* `P_MotionApart.v` (C96_energy, C96_energy_rate, C96_close): `ClassicalDedekindReals.sig_forall_dec`, `ClassicalDedekindReals.sig_not_dec`, `FunctionalExtensionality.functional_extensionality_dep`
* `P_MotionApart.v` (C96_any): `ClassicalDedekindReals.sig_forall_dec`, `FunctionalExtensionality.functional_extensionality_dep`
* `P_MotionBack.v` (C78_motion_pass, C78_whole_pass): `ClassicalDedekindReals.sig_forall_dec`, `FunctionalExtensionality.functional_extensionality_dep`
* `P_MotionBack.v` (C78_motion_gradient_partial): `ClassicalDedekindReals.sig_forall_dec`, `ClassicalDedekindReals.sig_not_dec`, `FunctionalExtensionality.functional_extensionality_dep`
* `P_MotionUnique.v` (C94_supported, C94_implicit, C94_explicit): `ClassicalDedekindReals.sig_forall_dec`, `ClassicalDedekindReals.sig_not_dec`, `FunctionalExtensionality.functional_extensionality_dep`
* `P_MotionUnique.v` (C94_kinetic): `ClassicalDedekindReals.sig_forall_dec`, `FunctionalExtensionality.functional_extensionality_dep`
* `P_Newton.v` (C28_newton_converged, C28_newton_failed, C28_newton_limits, C28_flag, C28_nan_flag_refuted, C28_first_throw_refuted, C29_line_search, C29_affine_one_step, C30_zero_model_refuted): `ClassicalDedekindReals.sig_forall_dec`, `FunctionalExtensionality.functional_extensionality_dep`
* `P_Newton.v` (C28_trust_region_converged, C28_trust_region_limits, C30_boundary_norm, C30_boundary_between_norm, C30_dogleg, C30_cg, C30_cg_defined, C30_cg_decreases, C30_proposal, C30_outer_iteration, C30_minimum_iterations_refuted): `ClassicalDedekindReals.sig_forall_dec`, `ClassicalDedekindReals.sig_not_dec`, `FunctionalExtensionality.functional_extensionality_dep`
* `P_NewtonLinear.v` (C92_matrix, C92_definite, C92_system, C92_newton): `ClassicalDedekindReals.sig_forall_dec`, `ClassicalDedekindReals.sig_not_dec`, `Classical_Prop.classic`, `FunctionalExtensionality.functional_extensionality_dep`
* `P_Ode.v` (C24_newmark_direct, C24_newmark_rate, C24_run_rate, C24_run_direct, C24_start, C24_rate_quadratic, C24_newmark_full_partial, C24_full_control_refuted, C24_central_difference_direct_refuted, C48_second_order, C48_first_order, C48_full_control_refuted, C05_integrator_memory_refuted): `ClassicalDedekindReals.sig_forall_dec`, `FunctionalExtensionality.functional_extensionality_dep`
* `P_Parallel.v` (C75_evaluation, C75_history, C75_any_two_divisions, C75_differentiated, C75_action, C75_matrix_partial, C75_empty_process_refuted, C75_quantity_gradient): `ClassicalDedekindReals.sig_forall_dec`, `FunctionalExtensionality.functional_extensionality_dep`
* `P_ParallelRuns.v` (C79_any_program, C79_quasi_static, C79_quasi_static_sensitivity, C79_dynamic, C79_heat, C79_heat_sensitivity, C79_dynamic_sensitivity): `ClassicalDedekindReals.sig_forall_dec`, `FunctionalExtensionality.functional_extensionality_dep`
* `P_PatchTest.v` (C72_nodal_force, C72_area_vectors, C72_inner_node, C72_regions, C72_heat, C72_loaded_force, C72_loaded, C72_loaded_heat): `ClassicalDedekindReals.sig_forall_dec`, `ClassicalDedekindReals.sig_not_dec`, `FunctionalExtensionality.functional_extensionality_dep`
* `P_PatchTest.v` (C72_pressure): `ClassicalDedekindReals.sig_forall_dec`, `FunctionalExtensionality.functional_extensionality_dep`
* `P_PatchTest.v` (C72_materials): `ClassicalDedekindReals.sig_forall_dec`, `ClassicalDedekindReals.sig_not_dec`, `Classical_Prop.classic`, `FunctionalExtensionality.functional_extensionality_dep`
* `P_PetscAdapters.v` (C88_method, C88_started, C88_systems, C88_preconditioner, C88_linear_settings, C88_linear_settings_partial, C88_linear_settings_refuted, C88_min_iterations_refuted, C88_backoff, C88_backoff_reaches): `ClassicalDedekindReals.sig_forall_dec`, `FunctionalExtensionality.functional_extensionality_dep`
* `P_Piola.v` (C63_gradient): `ClassicalDedekindReals.sig_forall_dec`, `FunctionalExtensionality.functional_extensionality_dep`
* `P_Piola.v` (C63_curl): `ClassicalDedekindReals.sig_forall_dec`, `ClassicalDedekindReals.sig_not_dec`, `FunctionalExtensionality.functional_extensionality_dep`
* `P_Plasticity.v` (C23_linear_law, C23_material_from_law): `ClassicalDedekindReals.sig_forall_dec`, `FunctionalExtensionality.functional_extensionality_dep`
* `P_Plasticity.v` (C23_power_law, C23_voce_law): `ClassicalDedekindReals.sig_forall_dec`, `ClassicalDedekindReals.sig_not_dec`, `Classical_Prop.classic`, `FunctionalExtensionality.functional_extensionality_dep`
* `P_Plasticity.v` (C23_always_returns, C23_elastic, C23_state, C23_dissipation, C23_on_surface_partial, C23_repeat_partial, C23_linear_converges, C23_on_surface_refuted, C41_j2): `ClassicalDedekindReals.sig_forall_dec`, `ClassicalDedekindReals.sig_not_dec`, `FunctionalExtensionality.functional_extensionality_dep`
* `P_Polys.v` (C44_powers, C44_bernstein_partial, C44_bernstein_refuted): `ClassicalDedekindReals.sig_forall_dec`, `FunctionalExtensionality.functional_extensionality_dep`
* `P_Polys.v` (C44_chebyshev_first, C44_chebyshev_second): `ClassicalDedekindReals.sig_forall_dec`, `ClassicalDedekindReals.sig_not_dec`, `FunctionalExtensionality.functional_extensionality_dep`
* `P_Polys.v` (C44_legendre): `ClassicalDedekindReals.sig_forall_dec`, `ClassicalDedekindReals.sig_not_dec`, `Classical_Prop.classic`, `FunctionalExtensionality.functional_extensionality_dep`
* `P_Pressure.v` (C85_resultant, C85_moment): `ClassicalDedekindReals.sig_forall_dec`, `ClassicalDedekindReals.sig_not_dec`, `FunctionalExtensionality.functional_extensionality_dep`
* `P_Pressure.v` (C85_work): `ClassicalDedekindReals.sig_forall_dec`, `ClassicalDedekindReals.sig_not_dec`, `Classical_Prop.classic`, `FunctionalExtensionality.functional_extensionality_dep`
* `P_Pressure.v` (C85_volume): `ClassicalDedekindReals.sig_forall_dec`, `FunctionalExtensionality.functional_extensionality_dep`
* `P_QBuffer.v` (C80_own_state, C80_higher_order_parameter, C80_rows_overlap_refuted, C80_shared_buffer_refuted): `ClassicalDedekindReals.sig_forall_dec`, `FunctionalExtensionality.functional_extensionality_dep`
* `P_QBuffer.v` (C80_value, C80_history): `ClassicalDedekindReals.sig_forall_dec`
* `P_QBuffer.v` (C80_module_buffer_fits): closed under the global context
* `P_Quadrature.v` (C32_segment, C32_triangle, C32_tetrahedron, C32_square, C32_cube): `ClassicalDedekindReals.sig_forall_dec`, `ClassicalDedekindReals.sig_not_dec`, `Classical_Prop.classic`, `FunctionalExtensionality.functional_extensionality_dep`
* `P_QuasiAdjoint.v` (C16_all_arguments, C74_joint_derivative, C74_gradient_partial, C74_last_reaction_partial): `ClassicalDedekindReals.sig_forall_dec`, `ClassicalDedekindReals.sig_not_dec`, `FunctionalExtensionality.functional_extensionality_dep`
* `P_QuasiAdjoint.v` (C74_pass): `ClassicalDedekindReals.sig_forall_dec`, `FunctionalExtensionality.functional_extensionality_dep`
* `P_QuasiAdjoint.v` (C74_memory_refuted, C74_changed_parameters_refuted, C74_reactions_refuted): `ClassicalDedekindReals.sig_forall_dec`, `ClassicalDedekindReals.sig_not_dec`, `Classical_Prop.classic`, `FunctionalExtensionality.functional_extensionality_dep`
* `P_QuasiStatic.v` (C73_step, C73_material_history, C73_solver_invisible, C73_equilibrium, C73_previous_is_first): `ClassicalDedekindReals.sig_forall_dec`, `FunctionalExtensionality.functional_extensionality_dep`
* `P_QuasiStatic.v` (C73_tangent, C73_newton, C73_newton_is_newton, C73_newton_equilibrium, C73_supports, C73_reset_refuted, C73_files_refuted, C73_previous_refuted, C73_trust_region, C73_trust_region_is): `ClassicalDedekindReals.sig_forall_dec`, `ClassicalDedekindReals.sig_not_dec`, `FunctionalExtensionality.functional_extensionality_dep`
* `P_ScalarSolve.v` (C21_refuses_iff_no_sign_change, C21_answer_in_interval, C21_converged_means_tolerance_met, C21_enough_iterations_converge, C21_root_derivative, C21_nan_only_at_flat_roots_partial, C21_point_of_interval_refuted): `ClassicalDedekindReals.sig_forall_dec`, `FunctionalExtensionality.functional_extensionality_dep`
* `P_ScalarSolve.v` (C21_root_bracketed): `ClassicalDedekindReals.sig_forall_dec`, `ClassicalDedekindReals.sig_not_dec`, `FunctionalExtensionality.functional_extensionality_dep`
* `P_ScalarSolve.v` (C21_distance_to_root, C21_enough_iterations_converge_residual): `ClassicalDedekindReals.sig_forall_dec`, `ClassicalDedekindReals.sig_not_dec`, `Classical_Prop.classic`, `FunctionalExtensionality.functional_extensionality_dep`
* `P_ShapeAware.v` (C35_point, C35_element_partial, C35_curl, C35_curl_refuted): `ClassicalDedekindReals.sig_forall_dec`, `FunctionalExtensionality.functional_extensionality_dep`
* `P_ShapeAware.v` (C35_boundary, C35_surface_measure): `ClassicalDedekindReals.sig_forall_dec`, `ClassicalDedekindReals.sig_not_dec`, `FunctionalExtensionality.functional_extensionality_dep`
* `P_ShapeAware.v` (C52_factors_partial, C52_simplex_refuted): closed under the global context
* `P_Shapes.v` (C33_segment, C33_quad, C33_hex, C33_triangle, C33_tetrahedron): `ClassicalDedekindReals.sig_forall_dec`, `ClassicalDedekindReals.sig_not_dec`, `Classical_Prop.classic`, `FunctionalExtensionality.functional_extensionality_dep`
* `P_Shapes.v` (C33_high_order_vanishes): `ClassicalDedekindReals.sig_forall_dec`, `FunctionalExtensionality.functional_extensionality_dep`
* `P_StateMgr.v` (C36_lookup, C36_store, C36_update, C36_frame, C36_restore_state, C36_restore_dual, C36_progress, C36_shape_displacement_refuted, C36_state_dual_alias_refuted, C36_mesh_after_load_refuted, C36_new_name_after_load_refuted, C36_mesh_twice_refuted, C36_store_keeps_values_refuted): `ClassicalDedekindReals.sig_forall_dec`
* `P_StateMgr.v` (C36_used_name, C36_checkpointed): closed under the global context
* `P_SteadyBack.v` (C77_steady_pass): `ClassicalDedekindReals.sig_forall_dec`, `FunctionalExtensionality.functional_extensionality_dep`
* `P_SteadyBack.v` (C77_steady_gradient_partial): `ClassicalDedekindReals.sig_forall_dec`, `ClassicalDedekindReals.sig_not_dec`, `FunctionalExtensionality.functional_extensionality_dep`
* `P_StiffBody.v` (C90_mesh, C90_one, C90_differ): `ClassicalDedekindReals.sig_forall_dec`, `ClassicalDedekindReals.sig_not_dec`, `FunctionalExtensionality.functional_extensionality_dep`
* `P_StiffBody.v` (C90_definite, C90_supported, C90_isotropic): `ClassicalDedekindReals.sig_forall_dec`, `FunctionalExtensionality.functional_extensionality_dep`
* `P_StoredEnergy.v` (C87_slope, C87_path, C87_cycle, C87_equilibrium, C87_minimum, C87_power, C87_conserved): `ClassicalDedekindReals.sig_forall_dec`, `ClassicalDedekindReals.sig_not_dec`, `FunctionalExtensionality.functional_extensionality_dep`
* `P_StoredEnergy.v` (C87_linear, C87_linear_quadratic, C87_stvk): `ClassicalDedekindReals.sig_forall_dec`, `FunctionalExtensionality.functional_extensionality_dep`
* `P_StoredEnergy.v` (C87_neo, C87_linear_refuted): `ClassicalDedekindReals.sig_forall_dec`, `ClassicalDedekindReals.sig_not_dec`, `Classical_Prop.classic`, `FunctionalExtensionality.functional_extensionality_dep`
* `P_SumFactor.v` (C34_quad_interpolate, C34_hex_interpolate, C34_segment_interpolate, C34_quad_integrate, C34_hex_integrate, C34_segment_integrate, C34_simplex_integrate, C34_quad_transpose, C34_hex_transpose, C34_segment_transpose, C34_simplex_transpose, C34_qoi): `ClassicalDedekindReals.sig_forall_dec`, `FunctionalExtensionality.functional_extensionality_dep`
* `P_SumFactor.v` (C34_accumulate): `ClassicalDedekindReals.sig_forall_dec`
* `P_Summary.v` (C70_curves, C70_statistics, C70_other_ranks, C70_misuse, C70_driver, C70_zero_dt_refuted, C70_second_module_refuted, C70_clash_refuted): `ClassicalDedekindReals.sig_forall_dec`, `FunctionalExtensionality.functional_extensionality_dep`
* `P_Summary.v` (C70_names): closed under the global context
* `P_SymEig.v` (C58_orthonormal, C58_distinct_partial, C58_close_partial, C58_repeated, C58_refuted, C58_function, C58_exp_det, C58_log, C58_exp_log, C58_log_exp, C58_sqrt, C58_exp_derivative, C58_log_derivative, C58_sqrt_derivative): `ClassicalDedekindReals.sig_forall_dec`, `ClassicalDedekindReals.sig_not_dec`, `Classical_Prop.classic`, `FunctionalExtensionality.functional_extensionality_dep`
* `P_SymmetricTangent.v` (C89_assembled, C89_solver, C89_neo, C89_stored): `ClassicalDedekindReals.sig_forall_dec`, `ClassicalDedekindReals.sig_not_dec`, `Classical_Prop.classic`, `FunctionalExtensionality.functional_extensionality_dep`
* `P_SymmetricTangent.v` (C89_rate, C89_stiffness, C89_mixed_refuted): `ClassicalDedekindReals.sig_forall_dec`, `ClassicalDedekindReals.sig_not_dec`, `FunctionalExtensionality.functional_extensionality_dep`
* `P_SymmetricTangent.v` (C89_linear, C89_stvk): `ClassicalDedekindReals.sig_forall_dec`, `FunctionalExtensionality.functional_extensionality_dep`
* `P_Tensor.v` (C18_inverse2, C18_inverse3, C18_singular2, C18_singular3, C18_det_multiplicative, C18_det_identity_and_transpose, C18_detApIm1, C18_dual_inverse2, C18_dual_inverse3, C19_answer_solves_partial, C19_every_invertible_2x2, C19_every_dominant_matrix_partial, C19_some_invertible_3x3_refuted, C19_positive_definite_refuted, C19_answers_exactly, C19_any_right_hand_side, C19_inverse_by_columns_partial, C19_dual_solution_partial, C20_sym_antisym, C20_sym_antisym_orthogonal, C20_dev_spherical, C20_isotropic_rank4, C20_isotropic_rank2, C20_isotropic_rank3): `ClassicalDedekindReals.sig_forall_dec`, `FunctionalExtensionality.functional_extensionality_dep`
* `P_ThermoRun.v` (C81_static_step, C81_dynamic_step, C81_static, C81_dynamic, C81_reported_configuration_refuted, C81_one_way, C81_static_run, C81_dynamic_run, C81_heat_part, C81_heat_part_dynamic, C81_solid_part, C81_solid_part_dynamic): `ClassicalDedekindReals.sig_forall_dec`, `FunctionalExtensionality.functional_extensionality_dep`
* `P_Thermomech.v` (C54_staggered_partial, C54_clocks_partial, C54_reset_repeats, C54_checkpoints_refuted): `ClassicalDedekindReals.sig_forall_dec`
* `P_Thermomech.v` (C54_restart_refuted, C54_solid_material, C54_heat_source_refuted): `ClassicalDedekindReals.sig_forall_dec`, `FunctionalExtensionality.functional_extensionality_dep`
* `P_Thermomech.v` (C54_names, C54_set_state, C54_user_parameters_refuted, C54_input_refuted): closed under the global context
* `P_Traced.v` (C82_linear, C82_argument, C82_joint, C82_gradient, C82_all_arguments, C82_tangent, C82_kink_refuted): `ClassicalDedekindReals.sig_forall_dec`, `ClassicalDedekindReals.sig_not_dec`, `Classical_Prop.classic`, `FunctionalExtensionality.functional_extensionality_dep`
* `P_TracedHeat.v` (C82_heat_values, C82_heat_gradient, C82_heat_all_arguments, C82_heat_joint): `ClassicalDedekindReals.sig_forall_dec`, `ClassicalDedekindReals.sig_not_dec`, `Classical_Prop.classic`, `FunctionalExtensionality.functional_extensionality_dep`
* `P_TracedHeat.v` (C82_conductors): `ClassicalDedekindReals.sig_forall_dec`, `FunctionalExtensionality.functional_extensionality_dep`
* `P_TracedSolid.v` (C82_solid_values, C82_solid_configurations, C82_solid_gradient, C82_solid_all_arguments, C82_solid_joint, C82_solid_tangent, C82_inverse): `ClassicalDedekindReals.sig_forall_dec`, `ClassicalDedekindReals.sig_not_dec`, `Classical_Prop.classic`, `FunctionalExtensionality.functional_extensionality_dep`
* `P_Traces.v` (C83_values, C83_side, C83_place, C83_all_points, C83_continuous, C83_sizes): `ClassicalDedekindReals.sig_forall_dec`, `FunctionalExtensionality.functional_extensionality_dep`
* `P_Traces.v` (C83_functions): `ClassicalDedekindReals.sig_forall_dec`, `ClassicalDedekindReals.sig_not_dec`, `Classical_Prop.classic`, `FunctionalExtensionality.functional_extensionality_dep`
* `P_Traces.v` (C83_shared_faces_shift): closed under the global context
* `P_Transient.v` (C76_step, C76_solver_sees, C76_solver_input, C76_motion, C76_start, C76_still, C76_material_history, C76_run, C76_solver_invisible, C76_heat, C76_heat_step, C76_steady, C76_steady_step): `ClassicalDedekindReals.sig_forall_dec`, `FunctionalExtensionality.functional_extensionality_dep`
* `P_Transient.v` (C76_jacobian, C76_start_time_refuted): `ClassicalDedekindReals.sig_forall_dec`, `ClassicalDedekindReals.sig_not_dec`, `Classical_Prop.classic`, `FunctionalExtensionality.functional_extensionality_dep`
* `P_Transient.v` (C76_newton): `ClassicalDedekindReals.sig_forall_dec`, `ClassicalDedekindReals.sig_not_dec`, `FunctionalExtensionality.functional_extensionality_dep`
* `P_Variant.v` (C38_access, C38_life_partial, C38_plain, C38_switch_refuted, C38_switch_memory, C38_frees_foreign_refuted, C38_coefficient_released_twice_refuted, C38_select): closed under the global context
* `P_WeakForm.v` (C57_virtual_work, C57_conjugate, C57_total, C57_area_vector): `ClassicalDedekindReals.sig_forall_dec`, `FunctionalExtensionality.functional_extensionality_dep`
* `P_WeakForm.v` (C57_momentum, C57_stresses_balance, C57_angular_momentum, C57_heat, C57_solid_power, C57_solid_power_defined, C57_heat_power, C57_heat_power_defined, C57_conduction_dissipates): `ClassicalDedekindReals.sig_forall_dec`, `ClassicalDedekindReals.sig_not_dec`, `FunctionalExtensionality.functional_extensionality_dep`
