# Formal model of kronbichler/adaflo in Rocq (Coq 8.16.1)

The code is read as text; nothing of /repo is compiled or run.  The model is a set of
Gallina definitions (`rocq/theories/Model_*.v`), every one with a comment giving the file and the
lines of /repo it models and the simplifications made.  Independent specifications are in
`Spec_*.v` or at the top of the property files; lemmas are in `Proofs_*.v`; the property theorems
are in `Properties_*.v`, each closed by an `exact` and followed by `Print Assumptions`, with an
`Example` showing that a non-trivial case meets the hypotheses.

## Conventions

* **Arithmetic.** Code on `double` is modelled over a record `Num` of operations (carrier, + - * /,
  comparisons, literals, conversion to int).  Two instances: exact reals `RNum` and IEEE binary64
  `FNum` (stdlib `SpecFloat`, 53 bit / 1024, round to nearest even; plain Gallina, no primitive
  floats, no axioms).  Theorems quantified over every `Num` hold in floating point as well as in
  exact arithmetic, because they use no law of the operations.  Theorems over `RNum` are about exact
  arithmetic and do *not* bound rounding errors.
* **Integers.** `unsigned int` is `Z`/`N` with explicit wrap modulo 2^32 where the property is about it.
* **Exceptions / UB.** `AssertThrow` and `throw` are an explicit error outcome.  deal.II's `Assert` is
  compiled out in release mode: the model is the release mode program; where an `Assert` guards a
  hypothesis this is written in the theorem.  Undefined behaviour (null dereference, out-of-range
  float-to-int conversion) is an explicit outcome.
* **External code.** deal.II finite element evaluation, Krylov solvers, MPI and Trilinos are
  represented by universally quantified oracles (function arguments), with their contract as a
  hypothesis in the statement (e.g. "the linear solver returns an exact solution").
* **Violated properties.** If the faithful model violates the English property there is a theorem
  `..._refuted` with a witness, and a `..._partial` theorem stating under which extra condition the
  property does hold.

## Plan per property

* **C01 The time loop ends exactly on the final time.** TimeStepping.v model of every member function over an abstract arithmetic (record Num); invariant over arbitrary call histories, proved for every Num without using any arithmetic law.
* **C02 The canonical time loop terminates.** Exact arithmetic: measure argument over R on the iterated next(). Binary64: refutation by invariant (a clock whose step is absorbed by rounding never ends), no bound on the iterations.
* **C03 Clock bookkeeping.** Generic part (previous/step_no) for every Num; sum of steps telescopes over R by induction on the history.
* **C04 Step size control respects the limits.** Closed form of set_desired_time_step over R; case analysis; refutation of the growth limit at now()==0.
* **C05 BDF-2 weights match the actual time levels.** Weights against an independent spec (derivative of the Lagrange parabola) over R; history invariant that last_step = real last step if no setter intervened; refutation with a setter.
* **C06 restart() restores a fresh clock.** Observational comparison of restart(c) with the constructor; refutation of weight sum; partial theorem listing the fields which are equal.
* **C07 Consistent theta weights and scheme names.** Finite case analysis per scheme, preserved over histories, injectivity of name().
* **C08 Extrapolation to the new time level.** Linear reproduction over R with the history invariant of C05.
* **C09 at_tick detects every tick interval.** Truncation analysis over R; partial theorem and refutation (tick in the first five percent).
* **C10 weight_has_changed is trustworthy.** Case analysis of the 1e-12 branch, any Num for the exact part, R for the error bound.
* **C11 Stokes problems have zero density.** Model of parse_parameters from the raw entry record to the FlowParameters record; case analysis.
* **C12 Accepted parameter sets satisfy the documented constraints.** Same model with wrap to unsigned 32 bit; refutation with negative degree.
* **C13 Unsupported or missing parameter files are rejected.** Strings: extension after the last dot; independent spec (suffix without further dot).
* **C14 Boundary registration is last-writer-wins per boundary id and local.** Registry as finite maps (std++ gmap), operations as a step function; frame theorems for all other ids/categories; refutation of atomicity.
* **C15 clear_all_boundary_conditions deletes all stored boundary descriptions.** Equality with the empty registry; partial + refutation.
* **C16 Conflicting boundary conditions are rejected before solving.** Model of the checks in initialize_data_structures as a decision function; iff with a disjointness spec.
* **C17 Output files are not overwritten.** Strings with padded decimal numbers; injectivity by parsing back; refutation in binary64/R of cycle uniqueness.
* **C18 Inflow fluid types registered by the user reach the level set advection.** State machine construct/register/advance of both level set solvers; refutation for the matrix-free class.
* **C19 The nonlinear solver is bounded and honest.** Newton loop as recursion over an oracle of residual norms and linear solver results (also throwing).
* **C20 Linear iteration budget.** Two stage Krylov driver over an oracle respecting the iteration limit of its SolverControl.
* **C21 Solution history is shifted correctly.** Vector history as state machine; induction over the number of steps.
* **C22 Initial Stokes solve leaves the parameters untouched.** State + exception outcome monad; refutation for the exceptional outcome.
* **C23 Refinement never exceeds the level limits.** Marking functions per cell lists; forall cells; MPI vote as max over ranks.
* **C24 The Newton operator is the exact derivative of the residual.** Pointwise quadrature evaluation over R for arbitrary dim (functions nat->R and finite sums); exact remainder identity.
* **C25 Picard, semi-implicit and Stokes operators are linear.** Linearity of the same function.
* **C26 Pressure mean projection.** Vectors as lists/functions over R, weights with nonzero sum.
* **C27 Operator application does not change the matrix object.** Swap state machine with emptiness flags; refutation for the asymmetric condition; null dereference as an explicit outcome.
* **C28 Diagonal preconditioner inverts the diagonal safely.** Lists over R, thresholds, alias = same list.
* **C29 Pressure Poisson operator restores its source vector.** Array with update; NoDup index list.
* **C30 Block preconditioner is an exact inverse for exact inner solvers.** mathcomp block matrices over any field, all sizes.
* **C31 Sub-element index tables are permutations.** Index arithmetic over nat; permutation / range / injectivity for all degrees.
* **C32 Cell diameter reduction.** min/max folds over ranks, cells, points.
* **C33 Adaptive time step obeys both CFL limits.** Formula over R; refutation with values for which the limit is exceeded.
* **C34 Bubble statistics integrate partial cells consistently.** Piecewise formula over R against exact polygon area (shoelace formula).
* **C35 Bubble statistics parallel reduction.** Pack/unpack of buffers and pointwise sums over ranks.
* **C36 Concentration range is exact.** min/max folds over ranks with sentinels.
* **C37 The discrete delta satisfies Peskin's moment conditions.** Real function with cos; moment conditions by trigonometric identities.
* **C38 The discrete Heaviside is the integral of the delta.** Derivative in the sense of the stdlib Reals (derivable_pt_lim), monotonicity from it.
* **C39 Fluid properties stay between the phase values.** Convexity over R; refutation for unclipped variant.
* **C40 The Heaviside field is a function of the level set field.** Cell loop as fold writing nodes; refutation by two cell orders / monotonicity witness.
* **C41 Reinitialization step counts and normals.** Loop model with oracle for update norms; trace of events; refutation for matrix variant.
* **C42 Reinitialization conserves the level set integral.** Finite sums over cells/quadrature points/basis; test with the constant function.
* **C43 Projection and reinitialization operators are symmetric positive.** Bilinear forms as finite sums; symmetry and non-negativity.
* **C44 Advection increment solves the implicit equation.** Operator and residual as finite sums, exactness hypothesis of the solver.
* **C45 Curvature smoothing keeps constants.** Operator on constants; refutation.
* **C46 All clocks of a two-phase run stay synchronous.** Product of clock models of C01; induction over steps; refutation of the reinitialization clock.
* **C47 Cahn-Hilliard Newton operator is the exact derivative.** Pointwise algebra over R and remainder identity.
* **C48 Cahn-Hilliard block preconditioner.** mathcomp matrices over any field (square roots given as field elements with their defining equations).
* **C49 Surface quadrature points are grouped without loss.** Lists: group/compress; flattening equals input; pointers.
* **C50 Surface tension force is linear in the surface tension and independent of the mesh position.** Force as finite sum; refutation of linearity for mixed variant, of single use for front tracking.
* **C51 Misspelled parameter entries are reported.** Entry checking of ParameterHandler over lists of assignments; prm rejects, json witness refutes.
* **C52 Fixing the pressure constant fixes a free pressure degree of freedom.** Choice of the dof as a function of the per-process sorted lists; MPI max as a fold; witness for the wrong choice.
* **C53 Preconditioner is built before it is used and rebuilt when it deteriorates.** Trace of builds and solves over all sequences of steps; case analysis of the update flags.
* **C54 The pressure shift is the same on all processes and meets the prescribed pressure.** MPI max as a fold over the list of processes; extremal element argument.
* **C55 The residual evaluates the documented weak form, and the Stokes operator is symmetric.** Independent weak-form specification (eps:eps) against the diagonal/off-diagonal assembly of local_operation; symmetry by testing with a second vector.
* **C56 The pinned pressure dof is the same on all processes.** MPI max as a fold over processes, 32-bit conversion of the sentinel; induction over the process list; refutation witness.
* **C57 The linear solver's claims about the preconditioner hold.** Configuration enumeration is a finite case analysis over the enums, linearity over all vectors and all inner operators.
* **C58 Component-wise velocity preconditioner does not mix components.** Index tables as loops over arrays with failing out-of-range writes; proof by a framing invariant for programs that write values of a fixed function.
* **C59 The maximal velocity is exact over all ranks.** fold of max over ranks.
* **C60 Level set extrapolation at the start of a time step.** Algebra on the model of init_time_advance; counterexample for the range.
* **C61 Body force: weight and balanced surface tension.** Cells as records of shape values; sum over nodes by partition of unity; linear algebra on finite sums.
* **C62 The level set does not depend on the output level.** Two runs of the loop model with different verbosity; induction on time steps; general violation.
* **C63 Order of operations and additional smoothing in a level set time step.** Trace of calls; invariant on the step of the last smoothing.
* **C64 Prescribed fluid types are imposed on the level set.** Object model with the copied registry; induction over registration calls and time steps.
* **C65 Cahn-Hilliard step balances the phase field.** Model_PhaseField.v: residual, linear operator and Newton loop over real vectors; sum the first block with partition of unity.
* **C66 Cahn-Hilliard Newton loop.** Model_PhaseField.v newton_loop with oracles for residual norm and linear solver; induction on the remaining iterations.
* **C67 Phase field on inflow boundaries.** Model_PhaseField.v: iterates on constrained unknowns; density from values read through homogeneous constraints.
* **C68 Initial profiles are equilibria.** Model_Curvature.v, Model_PhaseField.v: profiles with Coq's tanh; derivatives, limits at infinity, inverse by ln.
* **C69 Normals and curvature of the interface.** Model_Curvature.v: nodal normalization, curvature right hand side; uniqueness from C43.
* **C70 Curvature correction.** Model_LevelSetOps.v correct_curvature over reals.
* **C71 The sharp-interface right hand side is rebuilt from the present state.** Gravity assembly with constraints, CSR surface assembly, set_zero over arbitrary meshes; independence of the old content, sum of forces, totals; violation with a hanging node.
* **C72 The sharp interface moves with the time of the flow.** Position of a tracked point and the clock of Model_TimeStepping over arbitrary request histories; exact error formula; violation in the final step.
* **C73 Sharp-interface densities and viscosities.** Phase values through the constrained read; range and boundary violation.
* **C74 Every node of the surface mesh moves exactly once.** The two passes over the surface cells as folds with the velocity counter; closed form by induction, permutation invariance.
* **C75 Gravity of the sharp-interface solvers acts on the density at the integration point.** Gravity force parametrised by the quadrature index; agreement for index 0, violation for index 1 on a concrete cell for all gravity values.
* **C76 Every parameter member holds the value of its entry.** Parameters: invert parse_parameters completely and compare every member with Spec_Parameters.entry (find on the reversed file).
* **C77 Artificial viscosity of the advection.** Stabilization: the cell loop over points generic in Num; over R by a maximum characterisation, over binary64 (SpecFloat) the packed minimum gives NaN at rest.
* **C78 Diameter of the coarse mesh.** Stabilization: double loop over flagged vertices characterised as a maximum of distances.
* **C79 The advection step is accepted only with a small linear residual.** Stabilization: Krylov solvers are arbitrary functions, the stopping rule and fallback are modelled; residual bounds relative to the start of the last solver; counterexample for the fallback.
* **C80 Which cells are refined and coarsened.** RefinementIndicator: the level set indicator over an instance ENum of Num (exact reals with infinities and NaN, because log 0 and 0/0 occur), the others over R; equivalences for the flags, mesh-level theorems for every Num, counterexamples for oscillation and vertex order.
* **C81 The velocity preconditioner is built from the Jacobian of the current step.** VelocityMatrix: the assembly generic in Num (reals for the equality with the operator of Model_NSOperator applied to unit vectors, binary64 for the NaN of Stokes problems).
* **C82 Pressure Poisson and mass matrices are symmetric positive.** VelocityMatrix: pressure part; equality with the weighted Laplace and mass forms, quadratic form argument for positivity and kernel, counterexample for stale scratch data.
* **C83 The assembled normal projection matrix is the projection operator.** ProjectionMatrix: element matrices by unit vectors, distribute_local_to_global with constraint expansion, mask of couplings found on a reference cell; equality with the matrix-free operator by exchanging sums, symmetry/positivity by the quadratic form, mask argument from nonnegative piecewise linear shape functions.
* **C84 Diagonal preconditioner of the projections.** ProjectionMatrix: integrated squared shape functions scattered through the constraints; positivity, equality with the diagonal without hanging nodes, counterexample with a hanging node.
* **C85 Fields survive mesh refinement.** Transfer: all block vectors by name, SolutionTransfer and hanging node distribution as arbitrary linear maps, the calls of refine_grid in program order; per-stage lemmas, commutation of extrapolation with linear maps.
* **C86 State after setup of a two-phase problem.** Transfer: setup loop over markings; induction over the rounds.
* **C87 Prescribed velocities are met and stay met during the nonlinear iteration.** BoundaryValues: boundary value map as fold over faces, constraint lines; invariant under arbitrary Newton updates; violations at shared and hanging unknowns.
* **C88 Open boundaries feel exactly the prescribed external pressure.** BoundaryValues: const_rhs as sum over faces with distribution to masters; virtual work identity; equilibrium via the weak form theorem of C55.
* **C89 The output shows the computed fields.** JointOutput: joint vector as writes over cells and local indices per owner; contract of numberings; comparison of drawn indicators with the marking of C80.
* **C90 Writing output does not change the run.** JointOutput: output as state transformer (fields, flags, picture); run comparison through the reinitialization models of C41.
* **C91 Pressure and velocity history of the projection scheme.** Projection: time step as transformer of the block vectors (shift, swap, corrections), solver results arbitrary; induction over steps; textbook scheme as separate specification with end-of-step velocities.
* **C92 Linear systems of the projection scheme.** Projection: cell ranges with the viscosity pointer, Poisson wrapper of C29, momentum residual of C24; weak forms as specification.
* **C93 Body force of the matrix-based level set solver.** Matrix-based force: per cell tables, clock weights, constraint lines; virtual work and continuous surface force as specification; comparison with the model of C61.
* **C94 Reinitialization of the matrix-based level set solver.** Matrix-based reinitialization: local matrices and vectors per cell distributed with constraint lines; weak form for every admissible test function as specification; conservation, L2 stability and equilibria derived from it.
* **C95 Normals and curvature of the matrix-based level set solver.** Matrix-based normals and curvature: local matrices with reuse for translated cells, constraint lines, solved systems characterized by their weak form; constant functions as tests for the integrals, energy argument for uniqueness.
* **C96 Reference solutions of the verification programs solve the equations.** Model_Examples: the analytic functions of the test programs as real functions (Coquelicot derivatives). Properties_Examples: a specification of the Navier-Stokes equations by partial derivatives at every point; Taylor, Beltrami and Poiseuille fields fulfil it; uniqueness of derivatives shows that density other than one is no solution; corner flow: Stokes equations in polar coordinates, wall, interface and stress conditions by field arithmetic with sin^2+cos^2=1, denominator negative by sin x < x.
* **C97 Boundary data, start values, grids and forces of the example programs are admissible.** Same files: walls, maximum and integral (Riemann) of the inflow profile; lid edges; monotone transformations through tanh; violations: divergence of the start velocity of the channel, power of its force.
* **C98 Geometry of the tracked front.** Model_FrontGeometry/Properties_FrontGeometry: mapped curves over an abstract FE_Q with its vertices-first numbering; overwriting stores; normals, divergence of the normals; polygon of Gauss points with an abstract sound inside test; rotations and scalings by a relation between stores; violations with explicit curves.
* **C99 Pressure matrix for augmented Taylor-Hood elements.** Model_InteriorPenalty/Properties_InteriorPenalty: list of matrix entries added by the cell and face loops; bilinear form of the list; permutation of the inner sides into pairs; form equals the interior penalty form, symmetry, kernel, semidefiniteness by Young's inequality; violations on two cells.
* **C100 Record of the statistics.** Model_Record/Properties_Record: buffer, first-output flag, log of file actions; executions of the time loop over the clock model with arbitrary clock calls per step; invariant written ++ buffer = all rows; crash = prefix of the log; file names with injectivity of int_to_string; violation computed in binary64.
* **C101 Collecting points on the first process.** Model_Gather/Properties_Gather: small-step system of the first process, the other processes and FIFO queues with optional buffering; inductive invariant; deadlock freedom, decreasing measure, unique result; packing/unpacking by index arithmetic proved inverse.
* **C102 The matrices of the preconditioner act like the operators.** Model_GlobalMatrix/Properties_GlobalMatrix: lists of sparsity pieces and of local matrices per setting, entry-wise adding into a pattern with exception outside of it, setting of diagonal entries; entries in the pattern by a covering relation between local matrices and pieces; rows of free unknowns by exchanging sums, rows of constrained unknowns from closedness of the constraints; comparison with the Poisson wrapper of C29; counterexamples.
* **C103 Contact angle.** Model_ContactAngle/Properties_ContactAngle: list of wall faces collected from the cells, apply_contact_bc face by face over the three flat arrays with the stored values, reading and distributing through the constraints, shape functions and quadrature points of one-dimensional faces. Residual = sum over the wall faces for every history of calls, product = derivative (derivable_pt_lim) of the residual, residual = gradient of a wall energy; the tanh profile balances at the wall iff the inner product of the normals is minus the parameter; energies of wall and interface by integration (Coquelicot); violations: cosine instead of angle, boundary indicators, FE_Q values for iso-Q1 fields.
* **C104 Compiled kernels fit the elements in use.** Model_Dispatch: the registered degrees and quadrature formulas, each kernel as the list of its evaluator objects with template arguments, the macros as chains of comparisons, call sequences with exceptions. Proof: inversion of each macro, closed forms of the outcomes, exact ranges; lengths with the template degree against the lengths of the assembled matrix.
* **C105 The matrix behind the Cahn-Hilliard preconditioner.** Model_PhaseFieldMatrix: the clock, mesh, sparsity pattern and matrix as a state machine over user events; the assembly as in Model_GlobalMatrix. Proof: invariant over histories (using that an unflagged weight is unchanged), weak form by exchanging sums, room by the pattern's definition, and a concrete mesh with a hanging node.
* **C106 The pressure that balances surface tension.** Model_PressureInterpolation: elements as shape functions, support points and numbering tables; the interpolation matrix of both constructors; cells of Model_Force with that matrix. Proof: sums over permutations, glueing of nodal values to a global vector, tensor products of hat functions by induction over the dimension (bounds, linear exactness, independence of the cell on Cartesian meshes), corner values for hanging nodes.
* **C107 A time step that ends with an exception.** Model_AbortedStep: the time step of the level set solvers and of the projection scheme as a sequence of stages that either come to their end or stop with what they have written; clocks of Model_TwoPhaseClocks, vectors of Model_Transfer. Proof: frame lemma for the stages, induction on the calls for the clock, termination from C02.
* **C108 A whole run of the flow solver.** Model_Run: the time loop of the main programs around init_time_advance, apply_boundary_conditions, compute_residual, solve_nonlinear_system, composed of the models of the clock (C01-C10), the boundary values (C87), the residual (C24, C55) and the nonlinear iteration (C19). Proof: the weights of the clock after k steps are the Lagrange derivatives at the time levels (up to the relative 1e-12 the clock ignores), history by induction, residual by C55, exactness of the linearized step by C24.
* **C109 Volume of the fluids over a whole two-phase run.** Model_LevelSetRun: set-up and time steps of the matrix-free level set solver as a relation, composed of the clocks of C46, the advection and reinitialization operators of C42 and C44 and the shift of the history vectors. Proof: testing the linear system with the constant function (partition of unity), the weights of the advection clock in every step of every run (settled clock: ratio of steps at most 1.01), recursion for the integrals with contraction 0.35; violation by a computed run.
* **C110 Kinetic energy of an enclosed flow.** On Model_Run (C108): the equations of a successful step tested with the velocity itself. Proof: skew-symmetric convection does no work (divergence theorem of the integration formula), pressure work equals the continuity residual tested with the pressure (modes removed by orthogonal projection), Cauchy-Schwarz for the residual, polarisation identities of implicit Euler and BDF-2, accumulation over the steps; counterexample for the convective formulation by a computed step. For hanging nodes, periodicity and symmetry (Properties_HangingEnergy.v): the same estimates on Model_HangingRun through C127, with the computed velocity and the negative pressure (level removed) as test functions.
* **C111 Material parameters act where the equations are integrated.** Model_Coefficients: set-up, Stokes and two-phase writers of the coefficient fields on the matrix state of C27, selection of field or constant at a point. Proof: invariant over all histories (no field for one fluid), refinement of a reference description of the content of the fields for two fluids using the restoration theorems of C27, drag from the weak form of C55; the violations hold for all histories.
* **C112 The adapted mesh does not depend on the distribution of the cells.** Model_Distribution: the three marking routines with the level limit and comparison value each process computes from the cells it stores. Proof: with equal limits the marks are a map over the whole mesh and the answer an exists over it, both invariant under permutation; the limits are equal if everybody stored a cell of the finest level at setup; violation theorem for smaller limits with a process without cells as example.
* **C113 Surface tension of the sharp-interface solvers does not depend on the number of processes.** Model_SurfaceProcesses: the three force assemblies with the parts of the force vector, points and stored cells of every process, with and without compress(add). Proof: sums over owners telescope to sums over all cells; front tracking through C50_force_is_sum and the ghost layer; violations as exact formulas for the distributed front and the replicated mixed variant.
* **C114 A steady flow is not changed by the time loop.** No new definitions: Model_Run (C108). Specification: fits_the_boundary, equilibrium (momentum and continuity defects of C108 with zero time derivative), keep_zero for the Krylov solvers. Proof: induction over the steps; weights of constants sum to zero, extrapolation keeps constants, first residual zero, update zero. Affine stress: the discrete divergence theorem against 1 and the coordinates.
* **C115 Mass of the phases over a whole phase field run.** Model_PhaseFieldRun.v: time step of the phase field solver (clock of the flow, extrapolated guess of both blocks, Newton loop of Model_PhaseField with the l2 norm, exception without Newton), set-up and run. Specification: divergence_free, exact_solves (all linear systems actually solved in the run), pf_mesh. Proof: every step balances the masses with the weights of the clock (C65_balance for the last iterate), the weights come from the clock lemmas of C46/C109, and the recursion of C109 bounds the drift.
* **C116 Free energy of the phase field in a fluid at rest.** No new definitions. Specification: free_energy, gradient_norm, converged (zero residual), euler_weights, at_rest, neutral. Proof: the residual is tested with the chemical potential and with the increment (C47_weak_form), the double well is semi-convex, and the remaining quadratic form is non-negative under the step size bound; induction over the run. Violation by an explicit solution on one element.
* **C117 Densities on faces of the pressure preconditioner.** Modelled: the tables face_densities (level, index, face) with allocation at every new mesh, compute_density_on_faces, set_/get_face_average_density, and the calls setup_problem, advance_time_step, refine_grid of the level set, phase field and sharp-interface solvers as far as they touch them. Specification: current_mesh (the last mesh created), fluid_density (mixture at the face center), sound (level and index identify own cells). Proof: induction over the history shows that the tables fit the current mesh; lemmas on nested tables show that the last compute_force determines every entry.
* **C118 A balanced force drives no flow.** Modelled: the run of Model_Run.v with the user's force of every step, and the force of Model_Force.v with the interpolation of Model_PressureInterpolation.v. Specification: gradient_force (the force is - (P, div v) for all v zero on the walls), kinetic_energy and dissipation of C110, Laplace pressure (surface tension times curvature times indicator at the pressure nodes). Proof: the residual with force and pressure p is the residual without force and pressure p - P; the energy estimate of C110 then holds with the pressure relative to P; the force of the level set solver is a discrete gradient by C106. Properties_HangingBalanced.v: the energy estimates again for meshes with constraints (through C127 and C110_constrained).
* **C119 A domain filled with one fluid stays so.** Modelled: the runs of Model_LevelSetRun.v and Model_PhaseFieldRun.v, the indicator of Model_LevelSet.v, the force of Model_Force.v, the matrix-based advection of Model_LevelSetOps.v. Specification: filled (all unknowns +1 or -1). Proof: induction over the steps; weights of the fixed-step clock sum to zero, gradients of constants vanish by partition of unity, so all right hand sides are zero and the unique solutions are zero increments; the compression flux vanishes at +-1 for any normals; the Newton loop keeps c = +-1, w = 0 for every number of iterations. Violations of the matrix-based solver: one-cell outlet witness; general theorem for the stabilized branch at rest.
* **C120 The sections of the timing table are opened and closed in pairs.** Model_TimerSections.v: every function that opens a timer section, as a small imperative program (work, raise, enter, leave, scope, sequence, choice, loop, try) with a big-step semantics of open sections, events and exceptions; Properties_TimerSections.v: a static analysis proved sound by induction on executions and evaluated on each call, direct statements over executions, sessions by induction, the driven cavity run by induction on the refinements, violations by explicit executions.
* **C121 Each time scheme of the parameter file integrates the equations of the flow.** Model_ThetaSchemes.v: the run of Model_Run with the assertion on tau2 of local_operation; Properties_ThetaSchemes.v: the residual for an arbitrary tau1, by the weak form of C55; whole runs as in C108; the missing old-level force, the equivalence with a shorter implicit Euler step, and a Crank-Nicolson step computed exactly.
* **C122 Fluid volume over a whole run of the matrix-based level set solver.** Model_MatrixRun.v: assembled advection systems of level_set_okz_matrix.cc with hanging node lines, reinitialization of Model_MatrixLevelSet.v, flow clock; induction over the run with the advection system tested by the constant function; growth under stabilization by a recursion on the integrals.
* **C123 The operator of the flow solver does not depend on threads, cell ranges and vectorization.** Model_CellLoop.v: flat coefficient arrays with lanes, pointers set at the begin of a range and moved on after each batch, ranges, schedules as permutations of the tasks of all ranges; invariant for the pointers, then a run lemma for any order of points with distinct array indices, then permutation invariance of the sums; refinement of Model_NSOperator.v.
* **C124 The micro fluidic program gives every part of the channel boundary its condition and lets fluid in.** Model_MicroFluidic.v: distance function, inlet velocities with their ramp, the loop body that marks a face, the registered conditions as calls of Model_Boundary.v; the id of a face as a function of its centre, the registry evaluated for both dimensions, the ramp as a sine of the clamped time, corners by the inequality of the unit circle.
* **C125 An accepted time step conserves volume in every part of the domain.** Properties_MassBalance.v (no new model; the runs of Model_Run.v): the accepted residual norm of C121 bounds the continuity equations tested with the indicator function of a part (Cauchy-Schwarz); modes vanish for test functions orthogonal to them; a two-unknown enclosed flow as counterexample for arbitrary solvers. Properties_HangingBalance.v: the same for the runs of Model_HangingRun.v with conforming indicator functions (corollary of C127 with zero test velocity).
* **C126 The printed statistics of the flow solver contain every call exactly once.** Model_Statistics.v: clock, timers and counters of solve_system, solve_nonlinear_system, the matrix and the preconditioner, the print with its resets, the table; every step adds to the clock and to each recorded quantity what a clock-free specification says, a session falls into stretches that end with a print.
* **C127 Runs on meshes with hanging nodes, periodic boundaries and symmetry planes solve the discrete Navier-Stokes equations in the conforming space.** Model_HangingRun.v: the run of Model_Run.v with general resolved constraint lines; cell integrals of the unconstrained problem (Model_NSOperator.v) condensed as distribute_local_to_global does; testing with a function that fulfils the constraints undoes the condensation, the residual norm bounds the virtual power (Cauchy-Schwarz), invariants of the nonlinear loop carry the constraints from step to step.
* **C128 The memory report of the flow solver covers what the solver stores.** Model_MemoryReport.v: the sums of memory_consumption() and the lines of print_memory_consumption() in bytes; table proved complete by comparison with a separate list of objects; the total refuted by exact formulas for the missing memory.

## Trusted base

* Coq 8.16.1 kernel (`coqc`, and `vm_compute` for closed computations).
* The reading of the C++ sources by which the model was written (no extraction, no execution).
* Axioms: what `Print Assumptions` lists, per theorem at the end of this file.  Theorems over
  the real numbers use the axioms of the standard library's `Reals`
  (`ClassicalDedekindReals.sig_forall_dec`, `sig_not_dec`, `functional_extensionality_dep`); a few use
  `Classical_Prop.classic` (through Coquelicot's or the standard library's analysis).
  No axiom is declared in this development.

## Not modelled

deal.II itself (mesh, mapping, shape functions, DoF numbering, hanging-node constraint resolution, MPI
transport), Trilinos AMG/ILU, vectorisation (SIMD lanes are treated as independent points), timers,
screen and VTK content, performance, memory safety of library calls.

## Print Assumptions, per theorem

Every theorem of MANIFEST.json, grouped by what `Print Assumptions` lists (all are axioms of the standard library).

* **Closed under the global context (no axioms)**: C01_end_is_hit_exactly, C02_terminates_in_binary64_refuted, C03_bookkeeping, C03_setters, C06_restart_is_fresh_partial, C07_name_identifies_scheme, C07_constructors_agree, C10_weight_flag, C11_density_and_viscosity_selection, C12_enumerations, C12_only_documented_rejections, C12_negative_degree_refuted, C13_unsupported_files_are_rejected, C13_extension_recognised, C14_registry_is_the_history, C14_rejections, C14_wrong_components_change_nothing, C14_atomic_rejection_refuted, C15_clear_all_partial, C15_clear_all_refuted, C16_setup_accepts_exactly_compatible_registrations, C16_normal_flux_exclusive, C16_imposed_velocity, C17_files_not_shared, C17_master_record, C17_no_overwriting_refuted, C18_fluid_types_reach_advection_partial, C18_fluid_types_reach_advection_refuted, C19_bounded_and_honest, C19_failure_is_reported_as_zero, C20_linear_budget, C21_history_vectors, C22_initial_stokes_restores_parameters_partial, C22_initial_stokes_restores_parameters_refuted, C22_coefficients_restored_refuted, C23_marks_respect_limits, C23_levels_stay_within_limits, C23_pressure_based_limit, C27_velocity_vmult_restores, C27_pressure_poisson_vmult_restores, C27_pressure_mass_vmult_restores, C27_amg_histories, C27_amg_vmult_is_safe, C27_ilu_histories_partial, C27_refuted_after_compute, C27_refuted_after_velocity_vmult, C27_initialize, C29_index_list, C31_sub_elements, C31_sub_quad, C31_sub_quad_bijective, C31_sub_elements_cover, C46_reinit_runs_ahead, C49_grouping, C49_one_cell_per_point, C51_undeclared_entry_rejected_partial, C51_undeclared_entry_rejected_refuted, C52_fixed_pressure_dof_partial, C52_fixed_pressure_dof_refuted, C53_preconditioner_built_before_first_solve, C53_rebuild_on_deterioration, C53_reference_and_next_build, C56_pinned_dof_partial, C56_pinned_dof_is_unconstrained_refuted, C57_objects_exist_partial, C57_projection_with_scalar_ilu_refuted, C57_stationary_without_density_refuted, C58_scalar_dof_indices, C58_component_preconditioner, C58_local_ordering, C66_no_other_scheme, C76_every_member_holds_its_entry, C76_read_value, C76_defaults, C77_violation_at_rest, C80_level_set_mesh, C80_other_solvers_mesh, C81_violation_stokes, C86_flow_solver_velocity, C89_names, C89_patches, C89_violation_higher_order, C90_two_phase, C92_violation_stale_matrix, C93_table_in_range, C93_violation_table, C100_every_row_once, C100_one_file, C100_crash, C100_other_processes, C100_micro_particle, C100_rising_bubble_partial, C100_spurious_currents, C100_names, C100_violation_split, C100_join, C100_file_names, C101_line_messages, C101_surface_messages, C101_no_deadlock, C101_terminates, C101_result, C101_meanwhile, C101_exchange, C101_line_exchange, C101_surface_exchange, C104_fits, C104_registered, C104_silent, C104_phase_field_never_silent, C104_flow_range, C104_level_set_range, C104_phase_field_range, C104_violation_degree_6, C104_subdivisions, C112_same_answer, C112_answer, C112_distribution_partial, C112_distribution_base_partial, C112_violation_limit, C120_no_abort, C120_balanced_partial, C120_exceptions, C120_no_convergence, C120_booking, C120_session, C120_programs, C120_violation_retry, C120_violation_setup, C120_violation_pressure_fix, C120_violation_stokes_boundary, C120_violation_cavity, C124_violation_inlet_fluid, C128_table, C128_total_partial, C128_violation_arrays, C128_violation_total, C128_violation_scalar_ilu.
* **`ClassicalDedekindReals.sig_forall_dec`**: C26_disabled, C28_vector_on_blocks, C30_no_memory, C35_gather, C64_violation_not_imposed, C74_every_node_once, C74_order_independent, C85_fields_survive, C85_second_initialization, C85_violation_user_rhs, C85_violation_curvature_conformity, C85_other_vectors_new, C87_which_value, C87_elsewhere, C89_fields, C90_when, C90_fields, C90_start, C90_idempotent, C90_flags_partial, C90_violation_flags, C95_reused_matrices, C95_hanging_partial, C98_polygon_defined, C98_violation_three_dimensions, C123_one_thread, C126_processes.
* **`ClassicalDedekindReals.sig_forall_dec`, `FunctionalExtensionality.functional_extensionality_dep`**: C01_not_yet_at_end, C02_time_loop_terminates, C02_plain_loop_terminates, C03_steps_add_up, C04_desired_step_control, C04_growth_limit_refuted, C05_bdf2_weights_partial, C05_first_step_is_euler, C05_bdf2_weights_refuted, C05_uniform_weight, C06_restart_is_fresh_refuted, C07_scheme_constants, C08_extrapolation_partial, C08_extrapolation_refuted, C09_at_tick_partial, C09_every_tick_reported_refuted, C10_weights_partial, C12_accepted_parameters_are_consistent_partial, C17_cycle_numbers_partial, C20_linear_tolerance, C20_projection_step, C21_two_phase_history, C21_projection_pressure_guess, C23_answer_true_means_some_cell_is_marked, C24_residual_expansion, C24_newton_operator_is_the_derivative, C25_vmult_linear, C25_velocity_vmult_linear, C25_affine_steps_are_exact, C26_projection, C28_vector, C28_block, C29_poisson_wrapper, C30_inverts_block_triangular, C30_is_left_inverse, C30_two_step_convergence, C30_stationary, C30_inner_tolerance, C32_minimum, C32_cell_diameters, C32_maximum, C32_epsilon_used, C32_points, C32_refuted_coarse_cells, C34_exact_area, C34_bounds, C34_complement, C34_segment, C34_weights_partition, C34_cell_area, C34_saddle_refuted, C36_concentration_range, C36_samples, C36_partition_independent, C36_refuted_between_samples, C39_level_set, C39_faces, C39_phase_field, C39_phase_field_values, C39_sharp_interface_range, C39_violation_sharp_interface, C41_matrix_free, C41_step_counts, C41_no_stale_normals, C41_matrix_normals, C41_matrix_violation_only_diffusion, C41_matrix_violation_stale_normals, C42_step, C42_reinitialize, C42_refuted_dirichlet, C43_reinitialization, C43_pseudo_time_step, C43_normal, C43_curvature, C43_unique_solution, C43_pseudo_time_step_value, C43_normal_energy, C44_implicit_equation, C44_independent_of_guess, C44_keeps_constants, C44_matrix_equation, C44_matrix_conserves, C44_violation_matrix_stabilized, C44_matrix_constrained, C44_matrix_stabilized_equation, C45_diffusion_keeps_constants, C45_pure_diffusion_keeps_constants, C45_violation_step, C45_violation_factor, C46_advection_times, C46_advection_weights_partial, C46_violation_final_weights, C46_violation_reinit_after_end, C47_weak_form, C47_expansion, C47_newton_operator_is_derivative, C48_operators, C50_force_is_sum, C50_front_tracking_multiplicity, C50_front_tracking_generic, C50_violation_face, C50_assembled_linear, C50_front_tracking_total, C50_regularized_gradient, C53_why_built, C53_rebuild_frequency, C53_built_when_due, C54_pressure_shift, C55_residual_weak_form, C55_stokes_symmetric, C57_not_variable_means_linear, C59_maximal_velocity, C60_extrapolation, C60_not_bounded_refuted, C61_weight, C61_weight_phase_field, C61_linear_in_tension, C61_well_balanced, C61_only_at_interface, C61_well_balanced_phase_field, C61_tables, C61_one_fluid, C62_same_if_in_range, C62_violation, C63_order, C63_smoothing_distance, C63_memory, C64_matrix, C64_matrix_last_registration, C64_elsewhere, C64_violation_frozen, C65_first_block_solved, C65_balance, C65_mass_conserved, C65_time_step, C66_newton_loop, C66_violation_silent_failure, C67_boundary_value_frozen, C67_density_away_from_boundary, C67_violation_density_at_boundary, C69_planar_level_set, C69_total_normal, C71_history_independent, C71_sum_of_forces, C71_total_weight, C71_total_surface_force_partial, C71_violation_hanging_node, C72_position, C72_violation_final_step, C72_extrapolation, C72_extrapolation_error, C73_interior_value, C73_range, C73_violation_boundary, C73_front_tracking, C74_translation, C75_front_tracking, C75_mixed_constant_density_partial, C79_accepted_residual_partial, C79_violation_fallback, C79_state, C80_phase_field, C80_two_phase, C80_no_oscillation, C81_newton_block, C81_explicit_block, C81_scalar_matrix, C81_linear_block, C82_symmetric_positive, C83_matrix_is_operator, C83_symmetric_positive, C83_mask_loses_nothing, C83_iso_q1_points, C84_positive, C84_diagonal, C84_violation_hanging, C85_next_step_commutes, C85_others_not_read, C86_setup, C86_violation_velocity_conformity, C87_prescribed_values, C87_linear_conditions, C87_violation_shared, C87_violation_hanging, C87_only_there, C88_virtual_work, C88_constrained_rows, C88_fresh, C88_equilibrium, C90_run_matrix_free, C90_violation_run_matrix, C91_step, C91_first_step_partial, C91_run, C91_prediction_partial, C91_steady, C91_violation_initial_pressure, C91_violation_prediction, C92_divergence, C92_rotational_partial, C92_poisson, C92_mass_partial, C92_momentum_partial, C92_violation_viscosity, C92_violation_stale_weight, C92_violation_pinned, C92_violation_momentum, C92_constrained_rows, C92_right_hand_sides, C93_virtual_work, C93_force, C93_tables, C93_weight, C93_well_balanced, C93_same_as_matrix_free, C93_theta_at_rest_partial, C93_violation_old_curvature, C93_violation_old_heaviside, C93_tables_constant, C93_theta_partial, C94_which_cells, C94_pseudo_time_step, C95_normal_weak_form, C95_total_normal, C95_planar_normals, C95_smoothing_length, C98_circle, C98_stored_partial, C98_inside_partial, C98_violation_corner, C99_form, C99_densities, C99_symmetric, C99_constants, C99_semidefinite, C99_pattern, C99_scales, C99_violation_stationary, C99_violation_parallel, C99_coefficients, C99_penalty, C100_violation_names, C102_velocity_defined, C102_velocity, C102_pressure_defined, C102_pressure, C102_same_with_and_without_matrix, C102_symmetric_positive, C102_magnitude, C102_order_and_history, C102_violation_initial_stokes, C102_violation_simplex, C102_violation_mass, C102_violation_scalar_symmetry, C102_mass, C102_jumps, C102_initial_stokes, C103_residual, C103_derivative, C103_processes, C103_violation_indicator, C103_no_contact, C104_lengths, C104_violation_lengths, C106_values, C106_pressure, C106_balance, C106_balance_phase_field, C106_rest, C106_range, C106_cartesian, C106_corner, C106_hanging_constant, C106_violation_hanging, C107_clock, C107_run, C107_accepted, C107_returned, C107_next_call, C107_lost, C107_clocks, C107_full_iteration, C107_violation_retry, C107_projection_success, C107_projection_failed, C107_violation_projection, C109_balance, C109_volume, C109_fixed_step, C109_violation_stabilization, C109_guess, C111_one_fluid, C111_drag, C111_two_fluids, C111_before_indicator, C111_violation_damping, C111_violation_stokes, C113_front_tracking, C113_violation_front_distributed, C114_affine_stress, C114_plane_channel, C114_hydrostatic, C116_energy_step, C116_violation_large_step, C117_current, C117_setup, C117_factors, C117_violation_never_set, C118_drop, C119_level_set, C119_normals, C119_force, C119_phase_field_density, C119_matrix_based_partial, C119_violation_outlet, C119_violation_stabilized, C121_violation_missing_force, C121_violation_slow_motion, C121_violation_frozen_flow, C123_vmult, C123_velocity_vmult, C123_residual, C123_schedule, C123_preconditioner, C124_conditions, C124_corners, C124_violation_plates, C126_reports, C126_conservation, C126_nested, C126_row, C126_table, C126_defined, C126_violation_projection, C126_violation_direct.
* **`ClassicalDedekindReals.sig_forall_dec`, `Classical_Prop.classic`, `FunctionalExtensionality.functional_extensionality_dep`**: C26_enabled_changes.
* **`ClassicalDedekindReals.sig_forall_dec`, `ClassicalDedekindReals.sig_not_dec`, `FunctionalExtensionality.functional_extensionality_dep`**: C33_partial, C33_monotone, C33_refuted_capillary_limit, C34_cell_totals, C34_perimeter, C35_partition_independent, C35_reported, C35_circle, C37_even, C37_support, C37_nonnegative, C37_moments, C48_exact_inverse, C48_left_inverse, C48_coefficient, C50_linear_in_surface_tension, C50_violation_quadratic, C68_level_set_slope, C68_reinitialization_keeps_profile, C68_phase_field_equilibrium, C69_unit_or_zero, C69_direction_only, C69_reinitialization_normal, C69_total_curvature, C69_slope_bound, C69_violation_length_unit, C75_violation_wrong_points, C77_value, C77_bounds, C77_vanishes_on_solutions, C77_order_and_sign, C78_largest_distance, C78_order_independent, C82_poisson, C82_mass, C82_violation_zero_density, C94_weak_form, C94_conservation, C94_diffusion_stable, C94_pure_phase, C94_defined_partial, C94_violation_zero_normal, C94_violation_width, C94_violation_one_fluid, C95_curvature_weak_form, C95_unit_normals, C95_flat_partial, C95_violation_flat, C95_violation_total_curvature, C96_initial, C97_inflow, C97_lid, C97_channel, C97_violation_force, C98_normals, C98_normals_smooth, C98_violation_order, C98_violation_location, C98_moves_along, C103_face_value, C103_violation_face_value_2, C103_violation_face_value_34, C105_current, C105_weak_form, C105_complete, C105_violation_hanging, C105_violation_foreign, C108_implicit_run, C108_linearized_run, C108_violation_always_success, C108_violation_unreported, C110_euler_step, C110_euler_run, C110_bdf_step, C110_bdf_run, C110_violation_convective, C113_marching_cubes, C113_mixed, C113_violation_mixed_replicated, C114_steady_flow, C114_constant_steps, C115_mass, C115_fixed_step, C115_accepted_step, C116_energy_run, C118_euler_step, C118_bdf_step, C118_euler_run, C118_bdf_run, C118_rest_euler, C118_rest_bdf, C119_phase_field, C121_run, C121_linearized_run, C121_debug_refuses, C121_violation_crank_nicolson, C122_volume, C122_fixed_step, C122_continuous, C122_violation_growth, advance_balance, C124_inflow, C124_ramp, C124_violation_profile, C125_implicit, C125_linearized, C125_violation_enclosed, C125_constrained, C125_constrained_linearized, C127_constrained_run, C127_constrained_linearized, C110_constrained_euler_step, C110_constrained_euler_run, C110_constrained_bdf_step, C110_constrained_bdf_run, C110_constrained_nonvacuous, C118_constrained_euler_step, C118_constrained_bdf_step, C118_constrained_euler_run, C118_constrained_bdf_run, C118_constrained_rest_euler, C118_constrained_rest_bdf, C118_constrained_nonvacuous.
* **`ClassicalDedekindReals.sig_forall_dec`, `ClassicalDedekindReals.sig_not_dec`, `Classical_Prop.classic`, `FunctionalExtensionality.functional_extensionality_dep`**: C35_partition_independent_3d, C35_reported_3d, C37_continuous, C38_symmetric, C38_outside, C38_derivative, C38_monotone, C38_range, C38_continuous, C40_nodal, C40_order, C40_monotone, C40_midpoint, C40_violation_monotone, C40_violation_order, C40_violation_unresolved, C68_interface_energy, C68_distance_recovered, C69_flat_interface, C70_sphere, C70_far, C70_violation_orientation, C70_violation_sign, C80_level_set, C80_level_set_at_rest, C80_level_set_far, C80_violation_oscillation, C80_violation_vertex_order, C89_indicators, C89_indicators_at_rest, C89_violation_indicators, C95_violation_hanging, C95_correction, C96_taylor, C96_beltrami, C96_poiseuille, C96_wedge_stokes, C96_wedge, C96_similarity, C96_fluids, C96_violation_density, C97_inflow_mean, C97_grids, C97_violation_divergence, C97_violation_laminar, C103_energy, C103_young, C103_surface_energies, C103_violation_cosine, C119_indicator, C124_particle, C124_inlet_fluid.
