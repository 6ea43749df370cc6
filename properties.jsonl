{"id": "C01", "title": "The time loop ends exactly on the final time", "statement": "Whenever TimeStepping::next() makes at_end() true, now() is the stored final() value itself (no rounding) and the step size is final()-now_before; as long as at_end() is false the time is still short of final() by at least one percent of the last step.", "quantifier": "every start/end/step/min/max value, every scheme, every history of next/set_time_step/set_desired_time_step calls, every arithmetic (exact or floating point)", "why_tests_cant": "The end rule compares sums of arbitrarily many rounded steps with a tolerance; a test fixes one step size and one end time.", "anchors": ["source/time_stepping.cc:123-200 (TimeStepping::next)"]}
{"id": "C02", "title": "The canonical time loop terminates", "statement": "With a positive step size the loop `while(!at_end()) next();` performs finitely many iterations, at most (end-start)/min(step,max)+1 in exact arithmetic. (In binary64 the claim is false: a step below half an ulp of the start time never advances.)", "quantifier": "every start<end, every positive step and maximum step, every scheme, unbounded number of iterations", "why_tests_cant": "Termination for all parameters is not testable; the floating point failure needs a special magnitude ratio.", "anchors": ["source/time_stepping.cc:123-200 (next)", "include/adaflo/time_stepping.h:58-186"]}
{"id": "C03", "title": "Clock bookkeeping", "statement": "After every next(): previous() is the old now(), step_size() = now()-previous(), step_no() grew by one, and the sum of all step sizes taken since the start is now()-start().", "quantifier": "every sequence of next / set_time_step / set_desired_time_step calls on every clock", "why_tests_cant": "Holds for unbounded call histories; unit tests only sample uniform steps.", "anchors": ["source/time_stepping.cc:123-200", "source/time_stepping.cc:242-269"]}
{"id": "C04", "title": "Step size control respects the limits", "statement": "After set_desired_time_step(d) the step size lies in [min,max] (min<=max), it is d itself whenever d is admissible, and it never changes by more than a factor two unless the min/max limits force it. The next step taken is that size unless the end of the time interval or the max limit shortens it. (The growth limit is not applied whenever now()==0, which is not the same as the first step.)", "quantifier": "every desired value, previous step, limits and time", "why_tests_cant": "Clamps interact; tests check a couple of desired values.", "anchors": ["source/time_stepping.cc:251-269 (set_desired_time_step)", "include/adaflo/time_stepping.h:142-148 (documented criteria)"]}
{"id": "C05", "title": "BDF-2 weights match the actual time levels", "statement": "After next(), weight()*y(t_n)+weight_old()*y(t_{n-1})+weight_old_old()*y(t_{n-2}) is the exact derivative at t_n of the parabola through the three last time levels. This must hold for variable steps too; the code violates it when the step size was changed through set_desired_time_step/set_time_step between two next() calls because the old step is overwritten.", "quantifier": "all triples of time levels, all quadratic functions, all step-size histories", "why_tests_cant": "Needs arbitrary variable step histories; uniform-step tests cannot see the wrong old step.", "anchors": ["source/time_stepping.cc:131-168 (next)", "source/time_stepping.cc:264-268"]}
{"id": "C06", "title": "restart() restores a fresh clock", "statement": "After restart() the clock behaves like a newly constructed one: same time, steps, and the same integration weights in every following step. The code leaves weight_old_old() (and previous()) from the old run in place, so the first BDF-2 step after a restart has weights that do not sum to zero.", "quantifier": "every call history before restart()", "why_tests_cant": "Depends on the whole history before the restart.", "anchors": ["source/time_stepping.cc:104-119 (restart)", "source/time_stepping.cc:160-173"]}
{"id": "C07", "title": "Consistent theta weights and scheme names", "statement": "tau1()+tau2()=1 for each scheme with the values of the selected scheme, both never change during the run, and name() identifies the scheme uniquely; both constructors build the same clock from the same values.", "quantifier": "all four schemes, all parameter values, all histories", "why_tests_cant": "Invariance over histories.", "anchors": ["source/time_stepping.cc:24-102", "source/time_stepping.cc:204-224"]}
{"id": "C08", "title": "Extrapolation to the new time level", "statement": "From the third step on, extrapolate(old,old_old) reproduces every linear-in-time function exactly at the new time when the steps were not modified in between; in the first two steps it returns `old`. The coefficients always sum to one.", "quantifier": "all linear functions, all step sizes, all step numbers", "why_tests_cant": "All histories and values.", "anchors": ["source/time_stepping.cc:184-193", "include/adaflo/time_stepping.h:290-295"]}
{"id": "C09", "title": "at_tick detects every tick interval", "statement": "at_tick(tick) is true at the final time, and true in every step whose last 95 percent contain a multiple of the tick. The documented reading (some step reports every tick) is false: a tick that falls in the first five percent of a step is reported by no step.", "quantifier": "every tick>0, every non-negative time and step size", "why_tests_cant": "Requires exact placement of ticks relative to steps.", "anchors": ["source/time_stepping.cc:228-238 (at_tick)", "include/adaflo/time_stepping.h:96-101"]}
{"id": "C10", "title": "weight_has_changed is trustworthy", "statement": "If weight_has_changed() is false after next(), weight() is the same number as before and within 1e-12 relative of the exact new weight; if it is true weight() is exactly the new weight. weight()+weight_old()+weight_old_old()=0 up to that tolerance when no restart happened.", "quantifier": "all schemes and step histories", "why_tests_cant": "Tolerance logic over all histories.", "anchors": ["source/time_stepping.cc:158-180"]}
{"id": "C11", "title": "Stokes problems have zero density", "statement": "For physical type 'stokes' the parsed density and density difference are zero no matter what any section of the input says; for the other types the two-phase section overrides density/viscosity exactly when it is positive.", "quantifier": "every parameter file", "why_tests_cant": "Interaction of sections over all values.", "anchors": ["source/parameters.cc:450-614 (parse_parameters)"]}
{"id": "C12", "title": "Accepted parameter sets satisfy the documented constraints", "statement": "If parsing succeeds then velocity degree >= 2, epsilon > 0, diffusion length > 0, grad-div parameter >= 0, output vtk level <= 2, min step <= start step, the min<=max order is kept when min was above start, and the enumerations are the ones named in the file. Integer entries are stored modulo 2^32, so a negative velocity degree is accepted (violation).", "quantifier": "every parameter file passing the declared patterns", "why_tests_cant": "All inputs, including negative integers converted to unsigned.", "anchors": ["source/parameters.cc:450-614", "source/parameters.cc:61-419 (patterns)"]}
{"id": "C13", "title": "Unsupported or missing parameter files are rejected", "statement": "A file name is accepted only if the file exists and its last extension is json or prm; everything else raises an error before any parameter is read.", "quantifier": "every file name string", "why_tests_cant": "All strings.", "anchors": ["source/parameters.cc:42-58", "source/parameters.cc:423-448"]}
{"id": "C14", "title": "Boundary registration is last-writer-wins per boundary id and local", "statement": "Each set_* call changes only the entry of its own boundary id in its own category; a null velocity function means no-slip, a null pressure function means zero pressure; wrong component counts are rejected without change. An unknown fluid type is rejected after the velocity/pressure condition was already stored (not atomic).", "quantifier": "every sequence of registration calls, every boundary id", "why_tests_cant": "Arbitrary call sequences.", "anchors": ["source/flow_base_algorithm.cc:70-218"]}
{"id": "C15", "title": "clear_all_boundary_conditions deletes all stored boundary descriptions", "statement": "After clear_all_boundary_conditions() the registry equals that of a new object (as documented). The code keeps inflow fluid types and periodic directions.", "quantifier": "every registry content", "why_tests_cant": "All histories.", "anchors": ["source/flow_base_algorithm.cc:56-66", "include/adaflo/flow_base_algorithm.h"]}
{"id": "C16", "title": "Conflicting boundary conditions are rejected before solving", "statement": "Setup of the Navier-Stokes data structures succeeds only if the categories that exclude each other are disjoint, and every disjoint registration is accepted.", "quantifier": "every registry", "why_tests_cant": "All combinations of ids.", "anchors": ["source/navier_stokes.cc:230-360 (initialize_data_structures)"]}
{"id": "C17", "title": "Output files are not overwritten", "statement": "Two output events of one run with different cycle numbers never write the same file and on p processes every rank's file is listed exactly once in the master record. Two different output times can get the same cycle number (violation: the final output overwrites the last regular one).", "quantifier": "every base name, process count, time and frequency", "why_tests_cant": "All values of time/frequency/ranks.", "anchors": ["source/flow_base_algorithm.cc:222-279 (write_data_output)"]}
{"id": "C18", "title": "Inflow fluid types registered by the user reach the level set advection", "statement": "A fluid type registered with set_velocity_dirichlet_boundary/set_open_boundary before the first time step is used as Dirichlet value by the level set advection. True for the matrix-based solver; violated by the matrix-free LevelSetOKZSolver, which copies the (still empty) map in its constructor.", "quantifier": "every sequence construct / register / advance", "why_tests_cant": "Order-of-calls property.", "anchors": ["source/level_set_okz.cc:136-180 (constructor)", "source/level_set_okz_matrix.cc:404-425", "source/level_set_okz_advance_concentration.cc:514-531"]}
{"id": "C19", "title": "The nonlinear solver is bounded and honest", "statement": "solve_nonlinear_system performs at most NL-max-iterations linear solves, returns normally only if the residual tolerance was met or the linearization is a one-shot scheme, and raises the no-convergence exception otherwise; reported iteration counts equal the solves done.", "quantifier": "every sequence of residuals and linear solver outcomes, all linearizations", "why_tests_cant": "Behaviour of the solver oracles is arbitrary.", "anchors": ["source/navier_stokes.cc:835-1159 (solve_nonlinear_system)"]}
{"id": "C20", "title": "Linear iteration budget", "statement": "solve_system never performs more than max_lin_iteration Krylov iterations in total, the first stage never more than iterations_before_inner_solvers, and a stage that fails hands its iterate to the stronger preconditioner.", "quantifier": "all budgets, all solver outcomes", "why_tests_cant": "Oracle outcomes and unsigned arithmetic.", "anchors": ["source/navier_stokes.cc:561-653 (solve_system)"]}
{"id": "C21", "title": "Solution history is shifted correctly", "statement": "init_time_advance makes solution_old the last solution, solution_old_old the one before, and the new initial guess the extrapolation of both; after n steps the three vectors belong to the three latest time levels.", "quantifier": "all numbers of steps, all vectors", "why_tests_cant": "Unbounded histories.", "anchors": ["source/navier_stokes.cc:659-745 (init_time_advance)", "source/two_phase_base.cc:443-475"]}
{"id": "C22", "title": "Initial Stokes solve leaves the parameters untouched", "statement": "compute_initial_stokes_field restores density, linearization, physical type and all other parameters. Violated when the nonlinear solver throws: the temporary Stokes parameters stay.", "quantifier": "all parameter values, all solver outcomes including exceptions", "why_tests_cant": "Exceptional control flow.", "anchors": ["source/navier_stokes.cc:1164-1210"]}
{"id": "C23", "title": "Refinement never exceeds the level limits", "statement": "Cells at the maximum level are never marked for refinement and cells at the minimum level never for coarsening, in all marking routines; no cell carries both marks; marking happens on all ranks or on none.", "quantifier": "every mesh, every indicator field, every number of ranks", "why_tests_cant": "All meshes and fields.", "anchors": ["source/navier_stokes.cc:1300-1370", "source/two_phase_base.cc:327-390", "source/level_set_base.cc:286-396", "source/phase_field.cc:468-525"]}
{"id": "C24", "title": "The Newton operator is the exact derivative of the residual", "statement": "At every quadrature point, residual(u+h v) - residual(u) - h*vmult(v) is exactly the quadratic remainder, for every formulation of the convective term, damping, grad-div and time scheme weight; hence vmult is the Gateaux derivative.", "quantifier": "all velocity/pressure values and gradients, dimensions, parameters", "why_tests_cant": "Algebraic identity over all reals.", "anchors": ["source/navier_stokes_matrix.cc:702-893 (local_operation)"]}
{"id": "C25", "title": "Picard, semi-implicit and Stokes operators are linear", "statement": "vmult is additive and homogeneous in its argument for every linearization, so Krylov methods are applicable.", "quantifier": "all arguments, all linearization points", "why_tests_cant": "All reals.", "anchors": ["source/navier_stokes_matrix.cc:702-893"]}
{"id": "C26", "title": "Pressure mean projection", "statement": "apply_pressure_average_projection is a projection: idempotent, linear, the result has zero weighted mean, and vectors of zero mean are unchanged; it is disabled exactly when documented.", "quantifier": "all vectors and weights", "why_tests_cant": "All vectors.", "anchors": ["source/navier_stokes_matrix.cc:193-205"]}
{"id": "C27", "title": "Operator application does not change the matrix object", "statement": "velocity_vmult / pressure_mass_vmult restore the variable coefficient fields they swap, so any number of applications can follow. Violated if the preconditioner fields are empty while the linearized ones are not (next application dereferences null).", "quantifier": "every number of applications, both emptiness states", "why_tests_cant": "State machine over call sequences.", "anchors": ["source/navier_stokes_matrix.cc:349-442"]}
{"id": "C28", "title": "Diagonal preconditioner inverts the diagonal safely", "statement": "reinit stores inverses such that vmult(vmult-with-diagonal x)=x for all entries larger than 1e-10 of the maximum, and acts as identity on the rest; it never divides by zero; source and destination may alias; every block is treated alike.", "quantifier": "all diagonals, all vectors, all block counts", "why_tests_cant": "All vectors incl. zeros.", "anchors": ["source/diagonal_preconditioner.cc:40-124"]}
{"id": "C29", "title": "Pressure Poisson operator restores its source vector", "statement": "PressurePoissonMatrix::vmult leaves src unchanged as seen by the caller and writes the constrained rows with the prescribed values.", "quantifier": "all vectors and constrained index sets", "why_tests_cant": "All inputs.", "anchors": ["source/navier_stokes_preconditioner.cc:387-415"]}
{"id": "C30", "title": "Block preconditioner is an exact inverse for exact inner solvers", "statement": "With exact inverses of velocity block and Schur complement, the block triangular preconditioner inverts the block triangular matrix; applied to the saddle point system this gives a unipotent operator.", "quantifier": "all block matrices of all sizes", "why_tests_cant": "Linear algebra over all matrices.", "anchors": ["source/navier_stokes_preconditioner.cc:595-737 (vmult)"]}
{"id": "C31", "title": "Sub-element index tables are permutations", "statement": "The tables that split a higher order element into linear sub-elements are in range, hit every index, and pick the lexicographic corners of each sub-element, for all degrees and dimensions.", "quantifier": "all polynomial degrees, dim 2 and 3", "why_tests_cant": "Unbounded degrees.", "anchors": ["source/navier_stokes_preconditioner.cc:2550-2700"]}
{"id": "C32", "title": "Cell diameter reduction", "statement": "The reported minimal size is the minimum over all ranks/cells/points and bounds every eigenvalue from below; the maximal size is the maximum over the finest-level cells.", "quantifier": "all meshes, all partitions over ranks", "why_tests_cant": "All partitions.", "anchors": ["include/adaflo/util.h:49-120"]}
{"id": "C33", "title": "Adaptive time step obeys both CFL limits", "statement": "The time step requested by set_adaptive_time_step is positive and not larger than the convective CFL limit nor than the capillary limit. The capillary limit must use densities; the code uses viscosities for the second fluid (violation).", "quantifier": "all velocities, mesh sizes, material parameters", "why_tests_cant": "All reals.", "anchors": ["source/two_phase_base.cc:598-617"]}
{"id": "C34", "title": "Bubble statistics integrate partial cells consistently", "statement": "In every sub-cell the area fraction assigned to the bubble is in [0,1], is 1 minus the fraction of the complementary phase, and equals the exact polygon area for the linear interface for one-corner and two-corner cuts.", "quantifier": "all corner values", "why_tests_cant": "All real corner values and sign patterns.", "anchors": ["source/two_phase_base.cc:623-968"]}
{"id": "C35", "title": "Bubble statistics parallel reduction", "statement": "The packed buffers used in the MPI reduction round-trip and the reduced statistics equal the statistics of the union of all ranks' cells.", "quantifier": "all rank counts and local data", "why_tests_cant": "All partitions.", "anchors": ["source/two_phase_base.cc:900-968"]}
{"id": "C36", "title": "Concentration range is exact", "statement": "get_concentration_range returns values that bound the solution on all ranks and are attained.", "quantifier": "all vectors and partitions", "why_tests_cant": "All inputs.", "anchors": ["source/two_phase_base.cc:515-550"]}
{"id": "C37", "title": "The discrete delta satisfies Peskin's moment conditions", "statement": "discrete_delta is non-negative, even, zero outside [-2,2], continuous, and for every offset its values at the four neighbouring grid points sum to one, with equal even/odd sums and zero first moment.", "quantifier": "all real arguments", "why_tests_cant": "Identity over a continuum.", "anchors": ["include/adaflo/level_set_base.h (discrete_delta)"]}
{"id": "C38", "title": "The discrete Heaviside is the integral of the delta", "statement": "discrete_heaviside is 0 below -2, 1 above 2, H(x)+H(-x)=1, continuous, non-decreasing with derivative discrete_delta and values in [0,1].", "quantifier": "all real arguments", "why_tests_cant": "Identity over a continuum.", "anchors": ["include/adaflo/level_set_base.h (discrete_heaviside)"]}
{"id": "C39", "title": "Fluid properties stay between the phase values", "statement": "Density and viscosity set by compute_force are between the values of the two phases at every node/quadrature point where the interpolated Heaviside value is convex; phase field values are clipped first. The sharp-interface variant is not clipped (violation for |level set|>1).", "quantifier": "all level set values, all material values", "why_tests_cant": "All reals.", "anchors": ["source/level_set_okz.cc:330-345", "source/phase_field_local.cc:70-95", "include/adaflo/sharp_interface.h:905-925"]}
{"id": "C40", "title": "The Heaviside field is a function of the level set field", "statement": "compute_heaviside assigns each node a value that depends only on the level set field, not on the cell ordering, and is monotone in the nodal value. Violated when 6*epsilon < 2*subdivisions: nodes beyond the cutoff get the clipped distance 3, less than the unclipped limit 4.", "quantifier": "all level set fields, all cell orders, all epsilon/subdivisions", "why_tests_cant": "All fields and orders.", "anchors": ["source/level_set_okz.cc:478-540 (compute_heaviside)"]}
{"id": "C41", "title": "Reinitialization step counts and normals", "statement": "reinitialize performs at most diff_steps(+3)+stab_steps steps, diffusive steps first, computes the normals exactly once, before the first compressive step, and never uses uncomputed normals. The matrix-based variant keeps diffusing in all steps once diff_steps>0 (violation) and reuses stale normals (violation).", "quantifier": "all step counts, all early-termination points", "why_tests_cant": "All schedules.", "anchors": ["source/level_set_okz_reinitialization.cc:250-360", "source/level_set_okz_matrix.cc:915-1110"]}
{"id": "C42", "title": "Reinitialization conserves the level set integral", "statement": "The increment computed by a reinitialization step (exact linear solve) has zero integral, for diffusive and compressive steps, for every mesh whose shape functions sum to one.", "quantifier": "all meshes, shape functions, solutions, normals", "why_tests_cant": "All discrete fields.", "anchors": ["source/level_set_okz_reinitialization.cc:52-185"]}
{"id": "C43", "title": "Projection and reinitialization operators are symmetric positive", "statement": "The operators handed to the conjugate gradient method (reinitialization, normal and curvature projection) are symmetric and positive semidefinite with the mass part definite.", "quantifier": "all vectors, meshes, normals, parameters", "why_tests_cant": "All vectors.", "anchors": ["source/level_set_okz_reinitialization.cc:52-106", "source/level_set_okz_compute_normal.cc:80-115", "source/level_set_okz_compute_curvature.cc:80-130"]}
{"id": "C44", "title": "Advection increment solves the implicit equation", "statement": "If the linear solver is exact, solution+increment satisfies the discrete advection equation with the weights of the clock, whatever the initial guess. The matrix-based solver with convection stabilization violates this: its right-hand side omits the residual of the guess.", "quantifier": "all guesses, velocities, weights", "why_tests_cant": "All reals.", "anchors": ["source/level_set_okz_advance_concentration.cc:215-365", "source/level_set_okz_matrix.cc:505-580"]}
{"id": "C45", "title": "Curvature smoothing keeps constants", "statement": "The explicit damping after an approximate curvature projection is pure diffusion and must keep constant curvature. Violated: the operator applied contains the mass term (an int 2 converted to bool).", "quantifier": "all constant fields", "why_tests_cant": "All values.", "anchors": ["source/level_set_okz_compute_curvature.cc:385-394", "source/level_set_okz_compute_curvature.cc:262-300"]}
{"id": "C46", "title": "All clocks of a two-phase run stay synchronous", "statement": "The clock inside the level set advection takes the same steps as the Navier-Stokes clock, for every adaptive step sequence; the reinitialization clock also runs in the setup phase and is therefore ahead, so it passes the final time one step early and is advanced again after its end (violation).", "quantifier": "all step sequences", "why_tests_cant": "Histories of three interacting clocks.", "anchors": ["source/level_set_okz_advance_concentration.cc:486-489", "source/level_set_okz_reinitialization.cc:262,357", "source/level_set_base.cc:139-149"]}
{"id": "C47", "title": "Cahn-Hilliard Newton operator is the exact derivative", "statement": "The operator used in the Newton iteration is the Gateaux derivative of the residual, including the contact angle term.", "quantifier": "all fields and parameters", "why_tests_cant": "All reals.", "anchors": ["source/phase_field_local.cc:115-290 (local_residual, local_vmult)", "source/phase_field_local.cc:318-390 (apply_contact_bc)"]}
{"id": "C48", "title": "Cahn-Hilliard block preconditioner", "statement": "With exact inner inverses the two-solve preconditioner is the exact inverse of the shifted 2x2 block operator.", "quantifier": "all square matrices M,K of all sizes, all positive factors", "why_tests_cant": "All matrices.", "anchors": ["source/phase_field.cc:365-405 (BlockPreconditionerSimple)"]}
{"id": "C49", "title": "Surface quadrature points are grouped without loss", "statement": "collect_evaluation_points/collect_integration_points return a CSR structure: every (cell, point, weight) entry appears exactly once in the range of its cell, cells are strictly increasing, pointers monotone and end at the number of points.", "quantifier": "all point lists", "why_tests_cant": "All lists.", "anchors": ["include/adaflo/sharp_interface_util.h:262-300", "include/adaflo/sharp_interface_util.h:590-625"]}
{"id": "C50", "title": "Surface tension force is linear in the surface tension and independent of the mesh position", "statement": "The assembled interface force is linear in the surface tension coefficient and each surface quadrature weight is used exactly once. Violated: the mixed level set variant multiplies by the coefficient squared; front tracking counts points on cell faces once per adjacent cell.", "quantifier": "all coefficients, all point positions", "why_tests_cant": "All values.", "anchors": ["include/adaflo/sharp_interface_util.h:762-772", "include/adaflo/sharp_interface_util.h:240-262"]}
{"id": "C51", "title": "Misspelled parameter entries are reported", "statement": "A parameter file that assigns an entry that does not exist is rejected. Holds for .prm files; in .json files such entries are silently skipped (violation).", "quantifier": "all parameter files, all undeclared entry names", "why_tests_cant": "All files.", "anchors": ["source/parameters.cc:423-448 (parse_parameters)"]}
{"id": "C52", "title": "Fixing the pressure constant fixes a free pressure degree of freedom", "statement": "fix_pressure_constant constrains the lowest free pressure degree of freedom on the given boundary, on every process the same one, and setup is rejected if there is none. Violated: if the lowest boundary index is already constrained, that index is chosen again and no free one gets fixed.", "quantifier": "all distributions of boundary dofs over processes, all sets of constrained dofs", "why_tests_cant": "All numberings and partitions.", "anchors": ["source/navier_stokes_preconditioner.cc:1117-1157"]}
{"id": "C53", "title": "Preconditioner is built before it is used and rebuilt when it deteriorates", "statement": "After setup, the first thing any sequence of time steps does is build the preconditioner; a step after one that needed more than 1.2 times the linear iterations of the last build starts with a rebuild.", "quantifier": "all sequences of time steps, all linear solver outcomes, all parameters", "why_tests_cant": "All schedules of steps.", "anchors": ["source/navier_stokes.cc:872-881", "source/navier_stokes.cc:941-971"]}
{"id": "C54", "title": "The pressure shift is the same on all processes and meets the prescribed pressure", "statement": "When the pressure constant is fixed through a boundary function, every process adds the same number to the pressure, chosen so that the pressure takes the prescribed value at the boundary cell with the lowest index; if no process has such a cell the call is rejected.", "quantifier": "all numbers of processes, all distributions of boundary cells, all pressures", "why_tests_cant": "All partitions and values.", "anchors": ["source/navier_stokes.cc:986-1040"]}
{"id": "C55", "title": "The residual evaluates the documented weak form, and the Stokes operator is symmetric", "statement": "For every velocity/pressure pair the residual is (user forces) - (constant rhs) - [inertia with the scheme's weights and old solutions + convection in the chosen form - damping + 2 mu tau1 eps(u):eps(v) + (tau_grad_div div u - p) div v], and -q div u in the pressure rows; constrained rows carry the right-hand side only; consequently the Stokes operator is symmetric.", "quantifier": "all meshes, shape functions, states, coefficients, dimensions, time schemes, linearizations", "why_tests_cant": "Algebraic identity over all reals.", "anchors": ["source/navier_stokes_matrix.cc:266-293,600-910 (residual, local_operation)"]}
{"id": "C56", "title": "The pinned pressure dof is the same on all processes", "statement": "If the pressure constant is fixed on a boundary, all processes choose the same dof: the lowest unconstrained one among the boundary candidates; if no process has a candidate, the setup is rejected. Violated: the first boundary dof of a process is taken even if it is itself constrained.", "quantifier": "all numbers of processes, all distributions of boundary dofs and constraints", "why_tests_cant": "All partitions.", "anchors": ["source/navier_stokes_preconditioner.cc:1117-1153"]}
{"id": "C57", "title": "The linear solver's claims about the preconditioner hold", "statement": "When the preconditioner is reported as constant (so that GMRES instead of FGMRES is used), its application is a linear map; and for every accepted parameter combination the objects it uses have been created. Violated for the projection scheme with scalar ILU, and for stationary problems with density 0 (null pointers).", "quantifier": "all parameter combinations, all vectors", "why_tests_cant": "All configurations and vectors.", "anchors": ["source/navier_stokes_preconditioner.cc:595-845,901-972,2478-2484", "source/navier_stokes.cc:561-640"]}
{"id": "C58", "title": "Component-wise velocity preconditioner does not mix components", "statement": "With the scalar ILU preconditioner, component d of the result is the scalar preconditioner applied to component d of the source, for every numbering of the degrees of freedom; the index table maps every owned scalar unknown and component to the vector unknown at the same support point; the local ordering table inverts the element's system-to-component map. No access is out of range.", "quantifier": "all numberings, dimensions, cell lists and vectors", "why_tests_cant": "Quantifies over all dof numberings and meshes.", "anchors": ["include/adaflo/block_matrix_extension.h:104-152", "source/navier_stokes_preconditioner.cc:1225-1251,2496-2508"]}
{"id": "C59", "title": "The maximal velocity is exact over all ranks", "statement": "get_maximal_velocity returns the largest velocity magnitude over the sample points of all locally owned cells of all ranks (0 without cells), independent of the partition.", "quantifier": "all velocity fields, meshes and partitions", "why_tests_cant": "All partitions.", "anchors": ["source/two_phase_base.cc:479-506"]}
{"id": "C60", "title": "Level set extrapolation at the start of a time step", "statement": "Starting a two-phase time step moves the current field to the old one and the old one to the one before, and predicts the new field by an extrapolation that is exact for fields linear in time with any step sizes, and constant in the first step. The prediction is not kept within the range of the level set function (violation).", "quantifier": "all fields and step sizes", "why_tests_cant": "All reals.", "anchors": ["source/two_phase_base.cc:443-466"]}
{"id": "C61", "title": "Body force: weight and balanced surface tension", "statement": "compute_force assembles, summed over all velocity nodes, exactly minus gravity times the mass of the fluid (with the density used by the flow solver) in the last direction and nothing in the others; it is affine in the surface tension coefficient; with constant curvature and the gradient interpolated onto the pressure the capillary part is exactly the discrete gradient of a pressure, so a static drop can be balanced; cells with constant indicator get no capillary force.", "quantifier": "all meshes, shape functions, parameter values, indicator and curvature fields", "why_tests_cant": "Must hold for every mesh and field; a static-bubble test only samples one.", "anchors": ["source/level_set_okz.cc:320-408 (local_compute_force)", "source/phase_field_local.cc:49-130 (local_compute_force)"]}
{"id": "C62", "title": "The level set does not depend on the output level", "statement": "The computed level set is the same whether or not statistics are printed. Holds as long as the level set stays within [-1.02, 1.02]; otherwise violated: the range that triggers three additional diffusive reinitialization steps is only refreshed when the statistics are printed (output verbosity > 0).", "quantifier": "all meshes, operators, numbers of time steps and verbosity levels", "why_tests_cant": "A relation between two whole runs for every history; tests run with one verbosity.", "anchors": ["source/level_set_okz_reinitialization.cc:281-284", "source/two_phase_base.cc:515-545,866-891,1052-1077"]}
{"id": "C63", "title": "Order of operations and additional smoothing in a level set time step", "statement": "Every time step advects, reinitializes, computes the force and the residual before the flow is solved; a second, smoothing reinitialization with ten diffusive steps (followed by a new force and residual) happens exactly if the residual at least doubled, the last smoothing is more than three steps and the last refinement more than two steps ago; so two smoothings are at least four time steps apart.", "quantifier": "all residual histories, refinement histories and step numbers", "why_tests_cant": "All histories of residuals.", "anchors": ["source/level_set_base.cc:190-291"]}
{"id": "C64", "title": "Prescribed fluid types are imposed on the level set", "statement": "On a boundary for which a fluid type was registered, the level set takes the prescribed value after every time step. Holds for the matrix-based solver; violated by the matrix-free solver: it copies the (still empty) boundary registry in its constructor, so registered values never reach the advection operator and the level set on the boundary stays at its initial value for ever.", "quantifier": "all registration histories, initial fields, step sizes and increments", "why_tests_cant": "All call histories and runs.", "anchors": ["source/level_set_okz.cc:161-164", "source/level_set_okz_advance_concentration.cc:528-545", "include/adaflo/level_set_okz_advance_concentration.h:175", "source/level_set_okz_matrix.cc:377-396"]}
{"id": "C65", "title": "Cahn-Hilliard step balances the phase field", "statement": "After one Newton step with an exact linear solve, from any state and however few iterations are allowed, the discrete balance weight*int c + weight_old*int c_old + weight_old_old*int c_old_old + int u.grad c = 0 holds; without flow the integral of the phase field is conserved.", "quantifier": "all meshes without fluid type boundaries, all states, parameters and velocities", "why_tests_cant": "All real vectors and all numbers of iterations.", "anchors": ["source/phase_field_local.cc:138-216 (local_residual)", "source/phase_field.cc:337-369 (advance_cahn_hilliard)", "source/phase_field.cc:412-460 (solve_cahn_hilliard)"]}
{"id": "C66", "title": "Cahn-Hilliard Newton loop", "statement": "The loop performs at least one and at most max_nl_iteration solves, stops early only when the residual is below 0.001 times the tolerance, and a run that does not converge is reported. Violated in the last part: non-convergence is silent.", "quantifier": "all residuals, solvers, tolerances, limits", "why_tests_cant": "All behaviours of the linear solver.", "anchors": ["source/phase_field.cc:337-369 (advance_cahn_hilliard)"]}
{"id": "C67", "title": "Phase field on inflow boundaries", "statement": "On boundaries with a registered fluid type the phase field has the registered value and the flow solver uses the density of that fluid. Violated: the value there never changes from the initial one, and the density is computed with the boundary values read as zero.", "quantifier": "all fields, all meshes", "why_tests_cant": "All real vectors.", "anchors": ["source/phase_field.cc:112-136 (initialize_data_structures)", "source/phase_field_local.cc:72-94 (local_compute_force)", "source/phase_field.cc:452-457"]}
{"id": "C68", "title": "Initial profiles are equilibria", "statement": "The profile made from a signed distance is a stationary point of the reinitialization (level set) and of the Cahn-Hilliard free energy (phase field), its energy per interface area is the surface tension, and the distance is recovered from it near the interface.", "quantifier": "all distances, all interface widths", "why_tests_cant": "All reals.", "anchors": ["source/level_set_okz.cc:201-211 (transform_distance_function)", "source/phase_field.cc:101-109 (transform_distance_function)", "source/level_set_okz_reinitialization.cc:163-187"]}
{"id": "C69", "title": "Normals and curvature of the interface", "statement": "Nodal normals are unit vectors or zero and depend only on the direction of the gradient; a flat interface has zero curvature; the total curvature is that of the normals; the result does not depend on the unit of length. Violated in the last part: the threshold 1e-2 is absolute.", "quantifier": "all level set fields and meshes", "why_tests_cant": "All real vectors.", "anchors": ["source/level_set_okz_compute_curvature.cc:135-258 (normalize, local_compute_curvature_rhs)", "source/level_set_okz_reinitialization.cc:169-171"]}
{"id": "C70", "title": "Curvature correction", "statement": "With curvature_correction the value at a node near a spherical interface is the curvature of the sphere, whatever the distance of the node, for both orientations and without change of sign. Violated for negative curvature (never corrected) and for overestimated curvature outside.", "quantifier": "all radii, distances and dimensions", "why_tests_cant": "All reals.", "anchors": ["source/level_set_okz_compute_curvature.cc:360-380"]}
{"id": "C71", "title": "The sharp-interface right hand side is rebuilt from the present state", "statement": "In every step of the front tracking and mixed level set solvers the user right hand side equals gravity of the present densities plus the present surface tension on free velocity unknowns and zero on constrained ones, independent of earlier content; the total force equals the weight of the fluid plus the sum of the surface weights. Violated with hanging nodes: the surface force of constrained unknowns is discarded instead of being distributed.", "quantifier": "all meshes, densities, surfaces, earlier contents of the vector", "why_tests_cant": "All histories and meshes.", "anchors": ["include/adaflo/sharp_interface.h:535-550", "include/adaflo/sharp_interface.h:815-833", "include/adaflo/sharp_interface_util.h:379-434"]}
{"id": "C72", "title": "The sharp interface moves with the time of the flow", "statement": "A point of the interface in a uniform velocity v is at x0 + v (now - start) after every step. Violated in a shortened final step, where the interface moves with the size of the step before; the level set extrapolation uses step sizes of the previous step.", "quantifier": "all parameter sets, step requests, numbers of steps", "why_tests_cant": "All histories of step sizes.", "anchors": ["include/adaflo/sharp_interface.h:340-362", "include/adaflo/sharp_interface.h:535-550", "source/navier_stokes.cc:659-663"]}
{"id": "C73", "title": "Sharp-interface densities and viscosities", "statement": "The mixed level set solver stores prop + diff*(ls+1)/2 of the finite element level set, between the values of the two fluids for nodal values in [-1,1]; front tracking stores exactly one of the two values. Violated next to fluid type boundaries: the level set is read through its homogeneous constraints, giving a mixture of both fluids.", "quantifier": "all parameters, level set fields, constraint sets", "why_tests_cant": "All fields.", "anchors": ["include/adaflo/sharp_interface.h:633-672", "include/adaflo/sharp_interface.h:940-977"]}
{"id": "C74", "title": "Every node of the surface mesh moves exactly once", "statement": "update_position_vector moves each node by dt times the velocity at its old position, also when it is shared by cells, independent of the cell order; a uniform flow translates the surface.", "quantifier": "all surface meshes, velocity fields, step sizes", "why_tests_cant": "All connectivities.", "anchors": ["include/adaflo/sharp_interface_util.h:53-116"]}
{"id": "C75", "title": "Gravity of the sharp-interface solvers acts on the density at the integration point", "statement": "The gravity force is integrated with the density at the respective quadrature points. Violated for the mixed level set solver: it loops over the quadrature points of the pressure (index 1 of the flow solver) but reads the densities stored for the velocity quadrature, so that the force of a variable density is wrong.", "quantifier": "all density fields, meshes", "why_tests_cant": "All fields.", "anchors": ["include/adaflo/sharp_interface.h:1023-1062", "include/adaflo/navier_stokes_matrix.h:306-315", "source/navier_stokes.cc:439-450"]}
{"id": "C76", "title": "Every parameter member holds the value of its entry", "statement": "After reading a file each data member of FlowParameters equals the last assignment of its entry in the file, or the documented default if there is none (integers with the conversion to unsigned or bool, damping with reversed sign, vtk level clipped).", "quantifier": "all parameter files, all members", "why_tests_cant": "All combinations of 57 entries, repeated assignments.", "anchors": ["source/parameters.cc:61-419 (declare_parameters)", "source/parameters.cc:450-614 (parse_parameters)"]}
{"id": "C77", "title": "Artificial viscosity of the advection", "statement": "With stabilization the advection of the level set gets on every cell a viscosity that is not negative, at most 0.06 times the largest velocity times the cell diameter, zero where the old level sets already satisfy the transport equation, independent of the order of the points and of which fluid is positive. Violated for a fluid at rest: with packed instructions the scaling is 0/0 and the viscosity NaN.", "quantifier": "all velocity and level set histories, cell sizes, step sizes, quadratures", "why_tests_cant": "All fields; floating-point 0/0 only for the special state.", "anchors": ["source/level_set_okz_advance_concentration.cc:344-371"]}
{"id": "C78", "title": "Diameter of the coarse mesh", "statement": "diameter_on_coarse_grid is the largest distance of two vertices on the boundary of the coarse mesh, independent of the order of cells and faces.", "quantifier": "all coarse meshes", "why_tests_cant": "All vertex sets and connectivities.", "anchors": ["source/level_set_okz_advance_concentration.cc:70-100"]}
{"id": "C79", "title": "The advection step is accepted only with a small linear residual", "statement": "An advection step that reports success changed the level set by an increment whose linear residual is below 0.05 tol_nl or 1e-8 times the initial residual; otherwise the exception leaves the state as before. Violated: after a divergent BiCGStab run the GMRES fallback measures the reduction against the diverged iterate, and on failure clock and boundary values are already changed.", "quantifier": "all systems, Krylov behaviours, tolerances", "why_tests_cant": "All linear systems and solver histories.", "anchors": ["source/level_set_okz_advance_concentration.cc:508-656"]}
{"id": "C80", "title": "Which cells are refined and coarsened", "statement": "A marking routine refines exactly the cells whose indicator exceeds its bound and coarsens those below its bound, on every process, independent of the numbering of cells and vertices; a cell with unchanged indicator is not alternately refined and coarsened. Violated for the level set solvers: with normal length between e^-7 and e^-5 over epsilon a cell in a fluid at rest oscillates, and the look-ahead mixes the first and last point of the cell.", "quantifier": "all meshes, partitions, indicator fields, step numbers", "why_tests_cant": "All fields and level combinations.", "anchors": ["source/level_set_base.cc:296-412", "source/phase_field.cc:475-524", "source/two_phase_base.cc:325-390"]}
{"id": "C81", "title": "The velocity preconditioner is built from the Jacobian of the current step", "statement": "For every accepted parameter set the matrix handed to ILU or AMG for the velocity is finite and, for each component, the diagonal block of the operator of the time step at the current linearization point (plus, for ILU/AMG, the grad-div parameter times the vector Laplacian instead of the divergence term). Violated for Stokes: the assembly divides damping by density, 0/0, and every entry on every cell is NaN.", "quantifier": "all cells, quadratures, shape functions, coefficients, linearization points, physical types", "why_tests_cant": "All meshes and fields; floating point 0/0 for a whole class of problems.", "anchors": ["source/navier_stokes_preconditioner.cc:1718-2056"]}
{"id": "C82", "title": "Pressure Poisson and mass matrices are symmetric positive", "statement": "The matrices assembled for the pressure Schur complement are the Laplace form with coefficient 1/(weight*density) and the mass form with coefficient 1/(viscosity + grad-div): symmetric, positive semidefinite, with kernel exactly the functions with vanishing gradient resp. zero; every cell matrix depends on data of this cell only. Violated at points of zero density (accepted by the assertion), where the gradients of the cell before remain in the matrix.", "quantifier": "all cells, quadratures, densities, viscosities, physical types", "why_tests_cant": "All coefficient fields; scratch data survives between cells.", "anchors": ["source/navier_stokes_preconditioner.cc:2170-2228", "source/navier_stokes_preconditioner.cc:2350-2365"]}
{"id": "C83", "title": "The assembled normal projection matrix is the projection operator", "statement": "On every mesh, with hanging nodes and Dirichlet conditions, the assembled matrix used to solve for the normals acts on every free unknown exactly like the matrix-free operator (mass plus damping times Laplacian); it is symmetric and its quadratic form is that of the projection, hence positive; the precomputed compact sparsity pattern of a cell drops no nonzero entry.", "quantifier": "all meshes, constraints, quadratures, shape functions, vectors", "why_tests_cant": "All meshes and vectors.", "anchors": ["source/level_set_okz_preconditioner.cc:58-184", "source/level_set_okz_compute_normal.cc:82-184"]}
{"id": "C84", "title": "Diagonal preconditioner of the projections", "statement": "The diagonal preconditioner for the normal, curvature and reinitialization solves is positive at every unknown and equals the diagonal of the mass matrix. Violated for masters of hanging nodes, where products of constraint weights with other unknowns are missing.", "quantifier": "all meshes, constraints, shape functions", "why_tests_cant": "All meshes and constraint sets.", "anchors": ["include/adaflo/level_set_okz_preconditioner.h:31-77"]}
{"id": "C85", "title": "Fields survive mesh refinement", "statement": "refine_grid() replaces velocity, pressure and level set and their old time levels by the transferred fields (each by its own), also in the projection scheme; starting the next time step after a refinement gives the same as transferring the started time step, so no field that is not transferred is missed; the preconditioner is rebuilt; without marked cells nothing changes. Violated in details: the user right hand side is zero afterwards and the curvature is not made continuous at hanging nodes.", "quantifier": "all states, all (linear) transfer and hanging node operators, all clocks, coupled and projection schemes", "why_tests_cant": "All states and operators; histories.", "anchors": ["source/two_phase_base.cc:396-466", "source/navier_stokes.cc:230-497,659-718,1373-1408"]}
{"id": "C86", "title": "State after setup of a two-phase problem", "statement": "After setup_problem, for every number of adaptive refinements and whatever cells were marked, the level set is the profile of the initial distance function on the final mesh with the interface width of the final mesh, the velocity is the initial velocity on the final mesh (or the Stokes field if that is zero), pressure, curvature and old time levels are zero, and all fields are continuous at hanging nodes. Violated in the last part for the velocity.", "quantifier": "all initial functions, refinement parameters and markings", "why_tests_cant": "All marking histories.", "anchors": ["source/two_phase_base.cc:119-196", "source/navier_stokes.cc:363-393"]}
{"id": "C87", "title": "Prescribed velocities are met and stay met during the nonlinear iteration", "statement": "After the boundary conditions of a time step are applied, and after any number of nonlinear iterations whatever the linear solver returns, every velocity unknown on a Dirichlet boundary has the value of the user function at the new time (zero on no-slip boundaries), hanging node, periodicity and zero normal velocity conditions hold, and other unknowns are unchanged by applying the conditions. Violated at unknowns shared by boundaries with different values (last visited face wins, so a no-slip wall can move) and at hanging nodes on the boundary.", "quantifier": "all meshes, conditions, constraint sets, initial velocities, numbers of iterations, results of the linear solver", "why_tests_cant": "All solver outcomes and iteration histories.", "anchors": ["source/navier_stokes.cc:228-345 (initialize_data_structures)", "source/navier_stokes.cc:1216-1253 (apply_boundary_conditions)", "source/navier_stokes.cc:643,817-870"]}
{"id": "C88", "title": "Open boundaries feel exactly the prescribed external pressure", "statement": "The right hand side of an open boundary is the virtual work of the prescribed pressure at the new time for every velocity that fulfils the constraints, is rebuilt in every step, does not touch constrained unknowns, and has the sign of an external pressure: fluid at rest whose pressure equals the prescribed one has no momentum residual.", "quantifier": "all meshes, constraint sets, pressure functions, test velocities, time schemes and linearizations", "why_tests_cant": "All fields.", "anchors": ["source/navier_stokes.cc:1259-1318 (apply_boundary_conditions)", "source/navier_stokes_matrix.cc:263-295 (residual)"]}
{"id": "C89", "title": "The output shows the computed fields", "statement": "Every component of the output of the level set solvers carries the name of the field whose values it holds, at every node and for every distribution of nodes and cells over processes; the number of names equals the number of components and exactly velocity and normals are vectors; the picture is as fine as requested, by default no finer than either discretization; the refinement indicators shown mark the cells that will be refined. Violated: in a moving fluid the indicator shown uses five times the look-ahead of the marking, and the request of the sharp-interface solvers for higher-order cells is overwritten.", "quantifier": "all meshes, numberings, distributions, fields, parameters", "why_tests_cant": "All numberings and distributions over processes.", "anchors": ["source/level_set_base.cc:451-694 (output_solution)", "source/two_phase_base.cc:550-588", "source/flow_base_algorithm.cc:242-243", "include/adaflo/sharp_interface.h:553-600,836-900"]}
{"id": "C90", "title": "Writing output does not change the run", "statement": "A file is written exactly when an output tick is reached and fields are requested; otherwise nothing changes. Writing never changes velocity, pressure or level set, after the first step changes no field at all, and writing twice gives the same picture; the initial picture shows normals, curvature and Heaviside function of the level set shown. A run with and without drawing the initial state has the same level set. Violated: refinement flags of the user are cleared, and with the matrix-based solver drawing the initial state makes the first step use outdated normals.", "quantifier": "all states, meshes, distributions, operators, output requests", "why_tests_cant": "All histories of output requests.", "anchors": ["source/level_set_base.cc:451-694 (output_solution)", "source/level_set_okz_matrix.cc:617-620,714", "source/two_phase_base.cc:550-588"]}
{"id": "C91", "title": "Pressure and velocity history of the projection scheme", "statement": "In the projection scheme every time step extrapolates the velocity, evaluates the momentum equation with the pressure p^n + corrections of the last two steps weighted with the weights of the time derivative, and ends with p^{n+1} = p^n + phi + chi; over any number of steps the pressure is the sum of all corrections and exactly the corrections of the last two steps are remembered; the prediction makes the momentum equation that of the textbook scheme with divergence-free velocities in the time derivative; a steady state stays for any number of steps. Violated: the initial pressure is lost in the first step, and the prediction differs from the textbook scheme whenever the weights change, in particular in the second step of BDF-2.", "quantifier": "all states, clocks, boundary conditions, results of the linear solvers, numbers of steps", "why_tests_cant": "All histories and all solver outcomes.", "anchors": ["source/navier_stokes.cc:659-718,838-919,1046-1077", "source/navier_stokes_preconditioner.cc:779-850 (solve_projection_system)"]}
{"id": "C92", "title": "Linear systems of the projection scheme", "statement": "The three linear systems of a projection step are the momentum equation with the current coefficients, the Poisson problem (1/(w rho) grad phi, grad q) = -(div u, q) with homogeneous values at open boundaries, and the L2 projection of -mu div u, independently of how cells are grouped. Violated: with variable viscosity all cells of a range use the viscosities of the first cell; with linear pressures the Poisson matrix keeps the time step weight of the last preconditioner build; with AMG the velocity matrix keeps the coefficients of the last build so that the momentum equation is not fulfilled; the rotational correction is dropped at pinned unknowns.", "quantifier": "all meshes, groupings of cells, shape functions, constraints, coefficients, solutions of the systems", "why_tests_cant": "All fields and coefficient histories.", "anchors": ["source/navier_stokes_matrix.cc:298-455,922-1080", "source/navier_stokes_preconditioner.cc:359-416,779-850,930-946"]}
{"id": "C93", "title": "Body force of the matrix-based level set solver", "statement": "The force assembled by the matrix-based level set solver is, for every velocity that fulfils the constraints, the virtual work of tension times curvature times the gradient of the indicator minus the weight of the mixture whose density is stored in the flow operator; with constant curvature and interpolation onto the pressure it is the gradient of a discrete pressure; it is the force of the matrix-free solver; an interface at rest feels the same force in every time stepping scheme. Violated: in theta schemes without interpolation the old curvature is never read (Crank-Nicolson: half of the tension), with the Heaviside function as indicator the old gradient is the one of the level set (twice too large); the table of pressure gradients is too small if the pressure has more unknowns than the level set.", "quantifier": "all meshes, mappings, elements, parameter values, time weights, level set and curvature fields, constraints and velocities", "why_tests_cant": "Defects only show for particular time stepping schemes combined with particular flags; balance must hold for every mesh and field.", "anchors": ["source/level_set_okz_matrix.cc:95-316 (LevelSetOKZMatrixSolver::compute_force)", "source/level_set_okz.cc:320-408 (local_compute_force)"]}
{"id": "C94", "title": "Reinitialization of the matrix-based level set solver", "statement": "Each pseudo time step of the matrix-based reinitialization solves the intermediate conservative level set equation (compressive flux along the normals, diffusion along the normals, or isotropic diffusion in the diffusion steps) on all cells: it conserves the integral of the level set, diffusion never increases the L2 norm, a pure phase stays, the pseudo time step is at most the documented fraction of width and step; with a normal in each transition cell the system is finite. Violated: where the normal vanishes (one fluid with unsaturated level set) the system contains 0/0; the diffusion is not divided by the number of subdivisions, so that the initial profile of the level set is no equilibrium of the equation.", "quantifier": "all meshes, mappings, shape functions, quadratures, constraints, level set and normal fields, parameters", "why_tests_cant": "All fields and meshes; the profile is an equilibrium only for matching widths.", "anchors": ["source/level_set_okz_matrix.cc:909-1112 (LevelSetOKZMatrixSolver::reinitialize)", "source/two_phase_base.cc:290-291"]}
{"id": "C95", "title": "Normals and curvature of the matrix-based level set solver", "statement": "Normals are the damped L2 projection of the gradient of the level set and curvature the damped projection of the divergence of the unit normals, also where matrices of translated cells are reused; the integral of the normals is that of the gradient, planar level sets have exact constant normals, unit normals have length at most one; flat interfaces have zero curvature; all fields are continuous at hanging nodes. Violated: the boundary term is missing, so the total curvature vanishes for every normal field and a flat interface that meets the boundary gets curvature there; with curvature correction values at hanging nodes are not the interpolation of their masters.", "quantifier": "all meshes, mappings, shape functions, quadratures, constraints, level set fields, damping", "why_tests_cant": "All fields, meshes and constraint sets.", "anchors": ["source/level_set_okz_matrix.cc:613-718 (compute_normal)", "source/level_set_okz_matrix.cc:720-838 (compute_curvature)"]}
{"id": "C96", "title": "Reference solutions of the verification programs solve the equations", "statement": "The velocity and pressure against which the Beltrami, Taylor vortex, Poiseuille and moving contact line programs compare are exact solutions of the equations the solver discretizes: the Beltrami (3D) and Taylor (2D) fields fulfil the incompressible Navier-Stokes equations with symmetric stress at every point and time for density one and the given viscosity, the channel profile fulfils them for every density together with the wall, symmetry and open boundary conditions of the program, and the corner flow consists of two Stokes flows that match the moving wall, are impermeable at the interface and have continuous velocity and shear stress for the viscosity ratio of the run.", "quantifier": "all points, times, viscosities, contact angles and viscosity ratios", "why_tests_cant": "A test compares with the reference solution; a reference that misses the equations only shows as an error that does not converge, and only for the tried parameters.", "anchors": ["tests/beltrami.cc: ExactSolutionU, ExactSolutionP", "tests/poiseuille.cc: ExactSolutionU, ExactSolutionP", "tests/phasefield_poiseuille.cc: SimilarityVelocity"]}
{"id": "C97", "title": "Boundary data, start values, grids and forces of the example programs are admissible", "statement": "The data of the example programs are compatible with the problem they describe: the inflow profile vanishes on the channel walls, is positive inside, has the announced maximum and mean value one; the lid velocity vanishes on all edges of the lid; the start velocity of the periodic channel fulfils no-slip and periodicity and is divergence free; the grid transformations keep the order of points and the extent of the domain; the volume force of the channel drives the flow.", "quantifier": "all points of the domains and all times", "why_tests_cant": "The statements are about every point of a continuum.", "anchors": ["tests/flow_past_cylinder.cc: InflowVelocity", "tests/flow_past_square_cylinder.cc: InflowVelocity", "applications/drivencavity.cc: BoundaryVelocity, grid_transform", "applications/periodic_channel.cc: InitialChannel, grid_transform, local_compute_force"]}
{"id": "C98", "title": "Geometry of the tracked front", "statement": "The sharp-interface front-tracking solver attaches to every node of the front the unit normal and the curvature of the front at that node, independent of the numbering of the cells; both follow rigid motions and scalings of the front; the curvature of a circle is 1/R; points inside of the closed front and only these get the properties of the inner fluid.", "quantifier": "all curves made of finite element cells of any degree, all cell numberings, all rotations, scalings and shifts, all points", "why_tests_cant": "Normals and curvature are stored per unknown under two different numberings of the same points; tests with circles cannot see a permutation, because all values are equal.", "anchors": ["include/adaflo/sharp_interface_util.h: compute_normal, compute_curvature, construct_polygon, within", "include/adaflo/sharp_interface.h: FrontTrackingSolver::update_phases, update_gradient_and_curvature"]}
{"id": "C99", "title": "Pressure matrix for augmented Taylor-Hood elements", "statement": "For augmented Taylor-Hood elements the pressure matrix of the preconditioner is the symmetric interior penalty discretization of the pressure Poisson equation with coefficient 1/(density * time weight) and weak Dirichlet conditions on open boundaries: it is symmetric, annihilates all representations of constants without open boundaries, is positive semidefinite whenever the trace inequality with the code's penalty holds, all its entries are in the sparsity pattern, on every mesh including hanging faces and on every number of processes.", "quantifier": "all meshes with two-sided inner faces (refined or not), all degrees, densities, time weights and coefficient vectors", "why_tests_cant": "Symmetry and definiteness are statements about all coefficient vectors and all meshes; the preconditioner only loses iterations if they fail.", "anchors": ["source/navier_stokes_preconditioner.cc: compute_ip_matrix_q_dg0, compute_nitsche_matrix, local_assemble_preconditioner, initialize_matrices", "include/adaflo/navier_stokes_preconditioner.h: get_face_average_density"]}
{"id": "C100", "title": "Record of the statistics", "statement": "The text file with the statistics of a run (rising bubble, micro particle, spurious currents programs) contains, when the run has reached its final time, one line per time step in order and each exactly once, after the header line, whatever the file contained before; nothing else on disk is changed; a crash at any moment leaves a beginning of that record, missing at most the lines since the last output time; runs with different discretization parameters write to different files.", "quantifier": "all runs, all sequences of time step sizes, all output frequencies, all contents of the file system, all crash points, all processes", "why_tests_cant": "The claims quantify over all runs, previous contents of the disk and crash points; a test compares one record of one run on an empty directory.", "anchors": ["tests/rising_bubble.cc: MicroFluidicProblem::run", "applications/micro_particle.cc: MicroFluidicProblem::run", "tests/spurious_currents.cc: evaluate_spurious_velocities, run", "source/time_stepping.cc: at_tick"]}
{"id": "C101", "title": "Collecting points on the first process", "statement": "The collection of the interface points (bubble statistics) and of the velocity profiles (driven cavity, periodic channel) on the first process cannot deadlock, always ends, and gives the first process the points of all processes, unchanged, each once and ordered by process, in every scheduling of the processes and whether the MPI library buffers messages or not, also for several collections in a row and processes without points.", "quantifier": "all numbers of processes, numbers of points, dimensions, numbers of successive collections, interleavings and buffering decisions", "why_tests_cant": "Interleavings and buffering of messages cannot be enumerated by tests; deadlocks of unbuffered sends only show up for large messages.", "anchors": ["source/two_phase_base.cc: compute_bubble_statistics", "applications/drivencavity.cc: perform_data_exchange, output_results", "applications/periodic_channel.cc: perform_data_exchange"]}
{"id": "C102", "title": "The matrices of the preconditioner act like the operators", "statement": "With hanging nodes, periodicity, boundary conditions and constraints between velocity components, the matrices assembled for the preconditioner (full velocity, scalar velocity, linear sub-elements, pressure Poisson, pressure mass) never need an entry outside of their sparsity pattern, act on the free unknowns like the sum of the cell operators with the constraints resolved, decouple the constrained unknowns with a one on the diagonal (unknowns constrained only in the Schur complement keep their magnitude), are symmetric and positive if the cell matrices are, and do not depend on earlier assemblies or the order of the cells; applying the Poisson matrix gives the same as the operator without matrix.", "quantifier": "all meshes, numberings, constraints, cell matrices, preconditioner settings, cell orders and previous matrix contents", "why_tests_cant": "A missing sparsity entry or wrong diagonal appears only for particular combinations of hanging nodes, boundary conditions and settings.", "anchors": ["source/navier_stokes_preconditioner.cc: initialize_matrices, local_assemble_preconditioner, assemble_matrices, PressurePoissonMatrix", "source/navier_stokes.cc: compute_initial_stokes_field"]}
{"id": "C103", "title": "Contact angle", "statement": "With a contact angle in the parameter file, the walls of a Cahn-Hilliard simulation contribute to the residual the derivative of a wall energy, once per wall face and independently of the number of processes and of the order of the faces; the matrix-vector product contains the derivative of these terms at the last residual however many products are made; a planar interface with the equilibrium profile satisfies the discrete balance at the wall exactly under the angle of the parameter file (Young's law with the surface energies of the two fluids); the phase field used at the wall is the one of the solution; the walls are those of the documentation.", "quantifier": "all meshes, wall faces, constraints, phase fields, directions, parameters, subdivisions, numbers of processes and histories of residuals and products", "why_tests_cant": "Two tests use the entry with one value and compare recorded output; the terms as a gradient, their linearisation and the equilibrium angle concern all fields and parameters.", "anchors": ["source/phase_field.cc: PhaseFieldSolver, initialize_data_structures", "source/phase_field_local.cc: apply_contact_bc", "source/parameters.cc: contact angle", "tests/phasefield_poiseuille.prm"]}
{"id": "C104", "title": "Compiled kernels fit the elements in use", "statement": "Every cell kernel that runs was compiled for exactly the polynomial degrees and quadrature formulas that are registered at run time (or finds its sizes at run time, on simplex meshes only); for every combination of velocity degree and level set subdivisions that is not available the program throws instead of leaving out a term, and the documented velocity degrees 2 to 6 and every accepted number of subdivisions work, for the flow, the level set and the phase field solver alike; the mesh-dependent lengths inside a kernel do not depend on which instance is chosen", "quantifier": "every mesh type, velocity degree, number of level set subdivisions, choice of variable coefficients, every kernel of the three solvers and every sequence of calls", "why_tests_cant": "the instances are chosen at run time from a finite list by macros; the existing tests use a handful of combinations, and a missing or wrong instance shows up only for the combinations nobody ran", "anchors": ["source/navier_stokes_matrix.cc: EXPAND_OPERATIONS", "include/adaflo/level_set_okz_template_instantations.h", "source/level_set_okz_advance_concentration.cc", "source/level_set_okz_compute_normal.cc", "source/level_set_okz_reinitialization.cc", "source/level_set_okz_preconditioner.cc", "source/phase_field_local.cc", "source/two_phase_base.cc: initialize_data_structures"]}
{"id": "C105", "title": "The matrix behind the Cahn-Hilliard preconditioner", "statement": "In every history of set-up, mesh adaptation, step size changes and time steps of a phase field simulation, the preconditioner of each Cahn-Hilliard solve is computed from the matrix that belongs to the present mesh, interface width and time step weight, as if built from scratch; on functions vanishing at constrained unknowns that matrix is the weak form of mass plus coefficient times Laplacian (symmetric, at least the mass), and every entry has room in the sparsity pattern on every mesh", "quantifier": "all histories, clocks, meshes with their numbering and constraints, materials and functions", "why_tests_cant": "whether the matrix is rebuilt depends on the history of step sizes and meshes; a missing entry needs hanging nodes in particular positions", "anchors": ["source/phase_field.cc: create_cahn_hilliard_preconditioner, compute_residual, distribute_dofs, advance_time_step", "source/two_phase_base.cc: setup_problem, refine_grid, init_time_advance"]}
{"id": "C106", "title": "The pressure that balances surface tension", "statement": "With the gradient of the indicator taken in the pressure space (always in the phase field solver), the values handed to the pressure element are the values of the indicator field at the pressure nodes (zero for the additional constant of augmented elements), never outside of the range of the nodal values and exact for linear fields; the values of neighboring cells agree, so that with constant curvature (or chemical potential) and without gravity the force on the fluid is the discrete gradient of one global pressure and the fluid at rest solves the discrete momentum equation; this also holds on locally refined meshes", "quantifier": "all meshes, dimensions, numbers of parts per cell, pressure degrees, numberings of the elements, indicator fields, curvatures and materials", "why_tests_cant": "a wrong numbering or an inconsistent value between two cells gives spurious currents of small size only, which tests with tolerance accept", "anchors": ["source/level_set_base.cc: LevelSetBaseAlgorithm", "source/phase_field.cc: PhaseFieldSolver", "source/level_set_okz.cc: local_compute_force", "source/phase_field_local.cc: local_compute_force"]}
{"id": "C107", "title": "A time step that ends with an exception", "statement": "When a call of advance_time_step ends with an exception (a linear solver of the level set part or of the projection scheme that does not converge, the iterated scheme that is not available), the state of the solvers is defined: the clock of the flow has taken the step, the solution the call started from is in the old vectors of velocity, pressure, level set and curvature, so a program that catches the exception and goes on still reaches the final time after the same number of calls; a call that returns has gone through all stages, each started with the result of the one before. The failed step can be repeated by calling again: the history of the scheme is then the one of the accepted solutions.", "quantifier": "all states, step data, outcomes of the linear solvers, sequences of failing and succeeding calls", "why_tests_cant": "the failing solves are rare and the tests never continue after one; which vectors are in which state after an exception ranges over all points where it can be thrown and all histories of failures", "anchors": ["source/level_set_base.cc: advance_time_step", "source/two_phase_base.cc: init_time_advance", "source/level_set_okz_advance_concentration.cc: advance_concentration", "source/level_set_okz_reinitialization.cc: reinitialize", "source/navier_stokes.cc: init_time_advance, evaluate_time_step, solve_nonlinear_system", "source/navier_stokes_preconditioner.cc: solve_projection_system"]}
{"id": "C108", "title": "A whole run of the flow solver", "statement": "A program that calls advance_time_step until at_end() reaches the final time after finitely many steps with increasing times; after every step the velocity has the boundary values of the new time, and a step that does not report failure has produced fields that fulfil the weak form of the incompressible Navier-Stokes equations at that time, with the backward difference formula applied to the fields of this and the last two steps, up to the selected tolerance; a step that misses the tolerance is reported", "quantifier": "all meshes, coefficients, boundary conditions, forces, step sizes, tolerances, outputs of the linear solvers, numbers of steps", "why_tests_cant": "the statement is about every step of every run; it depends on the interplay of clock, history vectors, boundary values, residual and stopping criterion, each of which a test sees for a few runs only", "anchors": ["source/navier_stokes.cc: advance_time_step, init_time_advance, evaluate_time_step, solve_nonlinear_system, solve_system, compute_residual, apply_boundary_conditions", "source/navier_stokes_matrix.cc: residual, vmult, local_operation", "source/time_stepping.cc: next"]}
{"id": "C109", "title": "Volume of the fluids over a whole two-phase run", "statement": "In a run of the level set solver with velocities that have no divergence and do not leave the domain (as seen by the level set functions) the volume occupied by each of the fluids stays what the initial distance function prescribes, after every time step, whatever step sizes are requested, however many reinitialization and smoothing steps are made, with and without convection stabilization", "quantifier": "all meshes and level set spaces, velocities, step size histories, numbers of time, reinitialization and smoothing steps, all exact solutions of the linear systems", "why_tests_cant": "the loss per step is far below the tolerance of a test and accumulates over the run; it depends on the weights of a clock of its own, the history vectors and every reinitialization step", "anchors": ["source/level_set_base.cc: advance_time_step, setup_problem", "source/two_phase_base.cc: init_time_advance", "source/level_set_okz_advance_concentration.cc: advance_concentration, advance_concentration_vmult, local_advance_concentration_rhs", "source/level_set_okz_reinitialization.cc: reinitialize, local_reinitialize, local_reinitialize_rhs", "source/time_stepping.cc: next"]}
{"id": "C110", "title": "Kinetic energy of an enclosed flow", "statement": "In a container with resting walls, without loads and with one fluid, a run with the skew-symmetric formulation of convection (the default) does not create kinetic energy: with implicit Euler and any step sizes, the kinetic energy plus everything that viscosity, grad-div stabilization and damping have taken out is after any number of successful steps at most the initial kinetic energy, and with BDF-2 and constant step size at most twice that, up to what the tolerance of the solvers allows; this needs no discrete velocity without divergence", "quantifier": "all meshes, elements, numbers of steps, step sizes, initial velocities, viscosities, outputs of the linear solvers, fully implicit and semi-implicit formulations", "why_tests_cant": "energy balance is a statement on every step of every run; a wrong sign or factor in one of the convective terms makes runs unstable only at high Reynolds numbers and after many steps", "anchors": ["source/navier_stokes_matrix.cc: local_operation", "source/navier_stokes.cc: advance_time_step, solve_nonlinear_system, compute_residual", "source/parameters.cc: formulation convective term", "source/time_stepping.cc: next"]}
{"id": "C111", "title": "Material parameters act where the equations are integrated", "statement": "The density, viscosity and damping entries of the parameter file are the coefficients of the momentum equation at every quadrature point in every history of set-ups, initial Stokes solves, new indicator fields and solver calls: for one fluid the entries themselves (the damping entry as a drag force minus entry times velocity), for two fluids the mean of the two densities and viscosities weighted with the last indicator, and the same drag", "quantifier": "all parameter values, histories of calls, meshes, indicator fields, quadrature points", "why_tests_cant": "which value is used depends on the history of the coefficient fields; the tests never combine damping with two fluids and never look at the coefficients after the initial Stokes solve", "anchors": ["source/navier_stokes_matrix.cc: initialize, local_operation", "source/navier_stokes.cc: compute_initial_stokes_field", "source/level_set_okz.cc: local_compute_force", "source/phase_field_local.cc: local_compute_force", "include/adaflo/sharp_interface.h: update_phases", "source/parameters.cc: damping"]}
{"id": "C112", "title": "The adapted mesh does not depend on the distribution of the cells", "statement": "Which cells of the mesh are refined and coarsened, and the answer whether the mesh changes, is the same for every number of processes and every distribution of the cells to them, and all processes give the same answer", "quantifier": "all meshes, indicators, numbers of processes, distributions of the cells at setup and at the time of the adaptation, steps", "why_tests_cant": "tests run with one or two numbers of processes on a uniform initial mesh; the limits and comparison values are computed on each process from the part of the mesh it stores", "anchors": ["source/level_set_base.cc: mark_cells_for_refinement", "source/phase_field.cc: mark_cells_for_refinement", "source/two_phase_base.cc: mark_cells_for_refinement, setup_problem"]}
{"id": "C113", "title": "Surface tension of the sharp-interface solvers does not depend on the number of processes", "statement": "The surface tension force that the front tracking, mixed level set and marching cubes variants add to the right hand side of the flow is the same for every number of processes and every distribution of the background mesh", "quantifier": "all numbers of processes, owners of cells and unknowns, surface meshes, background meshes, orders chosen by the sort", "why_tests_cant": "the tests of the sharp-interface solvers run on one process", "anchors": ["include/adaflo/sharp_interface_util.h: compute_force_vector_sharp_interface (three variants), collect_integration_points", "include/adaflo/sharp_interface.h: update_surface_tension"]}
{"id": "C114", "title": "A steady flow is not changed by the time loop", "statement": "A velocity and pressure that fulfil the stationary equations and the boundary conditions are returned unchanged by every time step of the coupled formulations, after one iteration reported as successful, and a flow whose stress is an affine function of the position (plane Couette and Poiseuille flow, a fluid at rest in a gravity field) fulfils the discrete stationary equations exactly if it fulfils the differential equations", "quantifier": "all meshes and spaces containing the flow, densities, viscosities, schemes BDF-2 and implicit Euler, step sizes and numbers of steps, coupled formulations", "why_tests_cant": "One example flow on one mesh does not exclude drift for other meshes, orders or step sizes; the statement is about every number of steps.", "anchors": ["source/navier_stokes.cc:659-803,835-1045", "source/navier_stokes_matrix.cc:620-790", "source/time_stepping.cc:123-200", "tests/couette.cc", "tests/poiseuille.cc"]}
{"id": "C115", "title": "Mass of the phases over a whole phase field run", "statement": "In a run of the phase field solver with velocities that have no divergence and do not leave the domain (as seen by the phase field functions) and without inflow boundaries the integral of the phase field stays what the initial condition prescribes, after every time step, whatever step sizes are requested and however few Newton iterations are allowed", "quantifier": "all meshes and spaces, Cahn-Hilliard parameters, contact angles, velocities, step size histories, numbers of time steps and Newton iterations, all exact solutions of the linear systems", "why_tests_cant": "the loss per step is far below the tolerance of a test and accumulates over the run; it depends on the weights of the clock, the extrapolated initial guess, the history vectors and the last Newton iterate", "anchors": ["source/phase_field.cc: advance_time_step, advance_cahn_hilliard, solve_cahn_hilliard", "source/phase_field_local.cc: local_residual, vmult, compute_residual", "source/two_phase_base.cc: init_time_advance, setup_problem", "source/time_stepping.cc: next"]}
{"id": "C116", "title": "Free energy of the phase field in a fluid at rest", "statement": "Without flow and contact angle condition the time steps of the phase field solver never increase the Ginzburg-Landau free energy with the selected surface tension and interface width", "quantifier": "all meshes and spaces without inflow boundaries, phase fields, surface tensions, interface widths, diffusion lengths, step sizes, numbers of steps", "why_tests_cant": "the decrease of the energy is a statement on every solution of the nonlinear equations of every step; a wrong factor or sign in one of the terms shows up only for particular interfaces or as slow growth", "anchors": ["source/phase_field_local.cc: local_residual, compute_residual", "source/phase_field.cc: advance_cahn_hilliard", "source/time_stepping.cc: next"]}
{"id": "C117", "title": "Densities on faces of the pressure preconditioner", "statement": "With augmented Taylor-Hood elements and two different densities, every assembly of the preconditioner during a time step of a two-phase solver uses on each face the density of the fluid mixture of that time step at the face center, on the mesh the solver currently uses; the density is positive and the two cells at a face use the same one", "quantifier": "all histories of set-up, initial refinements, time steps with or without additional smoothing and any number of preconditioner builds, and mesh refinements; all meshes, distributions, densities and indicator fields", "why_tests_cant": "the densities live in tables that are resized to zero at every new mesh and must be refilled before the next build; a missed refill only shows with a particular element, density ratio and refinement history", "anchors": ["source/navier_stokes_preconditioner.cc:initialize_matrices", "include/adaflo/navier_stokes_preconditioner.h:set_face_average_density", "include/adaflo/navier_stokes_preconditioner.h:get_face_average_density", "source/level_set_base.cc:compute_density_on_faces", "source/phase_field.cc:compute_density_on_faces"]}
{"id": "C118", "title": "A balanced force drives no flow", "statement": "If the force given to the flow solver is in every step the gradient of some pressure of the discrete pressure space, the flow in a closed container behaves as without force: the kinetic energy obeys the bounds of the unforced flow, and a fluid at rest stays at rest up to what the tolerance of the solvers allows, however strong the force and however long the run; in particular surface tension with constant curvature between fluids of equal density, computed by the level set solver with interpolate_grad_onto_pressure, generates no flow but only the pressure jump of Laplace's law", "quantifier": "all meshes, elements, forces, indicator fields, numbers of steps, step sizes, viscosities, outputs of the linear solvers, fully implicit and semi-implicit formulations", "why_tests_cant": "spurious currents are a statement on every step of every run; a test sees a small velocity on one mesh and cannot tell it from a slowly growing one", "anchors": ["source/navier_stokes.cc: advance_time_step, solve_nonlinear_system, compute_residual", "source/navier_stokes_matrix.cc: local_operation", "source/level_set_okz.cc: local_compute_force", "source/level_set_base.cc: LevelSetBaseAlgorithm", "source/time_stepping.cc: next"]}
{"id": "C119", "title": "A domain filled with one fluid stays so", "statement": "If the initial indicator is that of one fluid everywhere, the two-phase solvers keep it exactly for every velocity field, with or without stabilization, boundary faces, contact angle, reinitialization and smoothing steps; the densities and viscosities at all points are those of this fluid and the only body force is gravity", "quantifier": "all meshes and spaces without inflow conditions, velocities and artificial viscosities of every step, normals, numbers of reinitialization and Newton steps, fixed step sizes, numbers of steps before the end", "why_tests_cant": "invariance over all velocities and all lengths of runs; one wrong term creates the second fluid out of nothing only where the velocity has a particular divergence or boundary flux", "anchors": ["source/level_set_okz_advance_concentration.cc", "source/level_set_okz_reinitialization.cc", "source/level_set_okz.cc: compute_heaviside, local_compute_force", "source/phase_field_local.cc", "source/level_set_okz_matrix.cc: advance_concentration"]}
{"id": "C120", "title": "The sections of the timing table are opened and closed in pairs", "statement": "The solvers report their run time in named sections of one timer, which a user may share for sections of his own. A call of the library never opens a section that is open already and never closes one that is not (a debug build would abort); when it returns, the open sections are the same as before the call, in the same order, every section has been closed as often as it was opened, and the linear solves, the preconditioner matrices, the residuals, the normals, curvatures, indicator functions, the advection and the reinitialization are each booked to their own section; a user's own sections stay open around any sequence of calls; a call that ends with an exception leaves no section of its own open; the failure of a nonlinear iteration is contained in the time step with all sections closed; and each process of the supplied programs leaves every section closed.", "quantifier": "every call of the Navier-Stokes, level set (both), phase field and sharp interface solvers, every branch and number of iterations in it, every exception from the code it calls, every list of open user sections, every session of such calls, every rank and number of refinements of the driven cavity program", "why_tests_cant": "The branches, iteration counts and exception points give unboundedly many executions; tests run without exceptions, on one process or in release builds, where a wrong nesting has no visible effect except wrong times.", "anchors": ["source/navier_stokes.cc: enter_subsection, leave_subsection, TimerOutput::Scope, solve_system, solve_nonlinear_system, evaluate_time_step, initialize_data_structures, compute_initial_stokes_field", "source/two_phase_base.cc: setup_problem, refine_grid, output_solution", "source/level_set_base.cc", "source/level_set_okz.cc", "source/level_set_okz_matrix.cc", "source/phase_field.cc", "source/phase_field_local.cc", "source/navier_stokes_preconditioner.cc: solve_projection_system", "applications/drivencavity.cc: output_results, run", "applications/periodic_channel.cc: run"]}
{"id": "C121", "title": "Each time scheme of the parameter file integrates the equations of the flow", "statement": "With each of the schemes explicit_euler, implicit_euler, crank_nicolson and bdf_2 that the parameter file offers, every time step that the flow solver reports as successful fulfils the Navier-Stokes equations in the time discretization of that scheme: convection and viscosity are taken from the new time level, the old one or the mean of both; what a scheme cannot do is refused.", "quantifier": "all schemes, meshes, problems, coupled formulations, linear solvers, numbers of steps", "why_tests_cant": "The tests use BDF-2 and implicit Euler; for the other schemes a run ends normally with plausible fields, and only the equation every accepted step fulfils, for all inputs, shows which problem was solved.", "anchors": ["source/parameters.cc: scheme", "source/time_stepping.cc: TimeStepping, next", "include/adaflo/time_stepping.h: tau1, tau2", "source/navier_stokes_matrix.cc: local_operation", "source/navier_stokes.cc: advance_time_step, solve_nonlinear_system, compute_residual"]}
{"id": "C122", "title": "Fluid volume over a whole run of the matrix-based level set solver", "statement": "Running the matrix-based two-phase solver from set-up over any number of time steps keeps the integral of the level set function (and with it the volume of each fluid) and keeps the level set continuous at hanging nodes: exactly for a fixed time step, up to 2e-12 relative per step for any history of step size requests. It holds for every velocity, so fluid carried through an open boundary is not removed. With convection stabilization it fails: the integral at least doubles in every step", "quantifier": "all meshes with hanging nodes, velocities of every step, normals, numbers of reinitialization and smoothing steps, step size histories, numbers of steps", "why_tests_cant": "quantifies over all run lengths, velocity fields and meshes", "anchors": ["source/level_set_okz_matrix.cc:371-610", "source/level_set_okz_matrix.cc:909-1105", "source/level_set_base.cc:245-275", "source/two_phase_base.cc:440-460"]}
{"id": "C123", "title": "The operator of the flow solver does not depend on threads, cell ranges and vectorization", "statement": "The residual, the matrix-vector product and the velocity block product of the flow operator and the matrices of its preconditioner are the sums over all cells of the contributions with the density, viscosity, damping and linearization velocity stored for that very cell, and after the residual every cell has its own new linearization velocity, no matter how the cell batches are grouped into ranges, in which order and by which threads they are worked on and how many lanes of a batch are filled. (For the viscosity-weighted divergence it fails, see C92.)", "quantifier": "all meshes, numbers of batches, lanes and quadrature points, partitions into ranges, schedules of the batches, vectors, coefficient and linearization fields (constant or variable coefficients, allocated or not allocated linearization), all local matrices", "why_tests_cant": "A test runs one partition and one schedule; a pointer that is not moved on is correct for ranges with one batch.", "anchors": ["source/navier_stokes_matrix.cc: local_operation, vmult, velocity_vmult, residual", "include/adaflo/navier_stokes_matrix.h: begin_densities, begin_viscosities, begin_damping_coeff, begin_linearized_velocities", "source/navier_stokes_preconditioner.cc: local_assemble_preconditioner"]}
{"id": "C124", "title": "The micro fluidic program gives every part of the channel boundary its condition and lets fluid in", "statement": "In the micro fluidic program every face of the channel boundary ends with exactly the condition of its place: prescribed inflow at the left, right and lower end, pressure 50 with normal flow at the upper end, no-slip on all other faces, and the setup accepts the conditions. The inflow starts at zero at time 0, is continuous and monotone in time, constant after 0.01, and points into the channel at all three inlets. The particle is the fluid +1 inside the ball of radius 1/4 about (1/2,...,1/2); the surrounding fluid -1 is the one registered to flow in. Rounded walls, and only those, get the manifold of their corner. It fails in places: the default method does not impose the registered fluid, the inflow does not vanish at the walls next to an inlet (and is not normal to the lower inlet in three dimensions), and flat plates of the extruded channel get cylinder manifolds", "quantifier": "all boundary faces of all 2D and 3D meshes of the channel (centres resolved to 1e-14), times, points, interface widths", "why_tests_cant": "The program has one parameter file in the tests; which condition a face gets depends on the mesh and on the order of the tests in the loop, and the flow at the inlets is a statement about all times.", "anchors": ["applications/micro_particle.cc: InitialValuesLS, BoundaryValuesVelocity, set_boundary_indicators, set_all_boundary_conditions", "source/flow_base_algorithm.cc: set_velocity_dirichlet_boundary, set_no_slip_boundary, set_open_boundary_with_normal_flux", "source/level_set_okz.cc: transform_distance_function"]}
{"id": "C125", "title": "An accepted time step conserves volume in every part of the domain", "statement": "After every time step that reports success, the flow out of every part of the domain that the pressure space resolves (a union of cells, or the whole domain) is zero up to the nonlinear tolerance times the length of the coefficient vector of that part's indicator function, and so is the flow through the faces around it; with removed pressure modes (enclosed flow) the flows out of two parts are in proportion to their volumes. With a prescribed total source of zero this is the balance of inflow and outflow. It fails for enclosed flow with boundary data that do not balance: every step reports success whatever the solver does and the surplus is spread over the domain", "quantifier": "all meshes, shape functions, boundary data, step-size histories, time schemes, solver behaviours (implicit formulations) or convergent solvers (linearized formulations), all steps", "why_tests_cant": "A test measures one outflow at the end; that the accepted residual bounds the imbalance of every part in every step is a statement about all test functions.", "anchors": ["source/navier_stokes.cc: evaluate_time_step, compute_residual, solve_nonlinear_system", "source/navier_stokes_matrix.cc: local_operation, residual, apply_pressure_average_projection"]}
{"id": "C126", "title": "The printed statistics of the flow solver contain every call exactly once", "statement": "The statistics (nonlinear solves, linear solves, matrix-vector products, applications of the preconditioner and of its parts) are printed after the nonlinear solves of the steps 1, 11, 21, ... or of every step with verbosity 3, if enabled. Each report contains exactly the number of calls and the time spent since the previous report; what is not yet printed is kept, so nothing is lost or counted twice. The times are nested (parts in the preconditioner, preconditioner and products in the linear solver, linear in nonlinear solver), processes that make the same calls print equal counts, and the time per call is the mean over all calls of all processes. It fails for the projection scheme: linear solves, products and preconditioner are never counted and the time per call is zero divided by zero in seven of eight rows; and a program that calls solve_system itself finds its time in the report of the next step", "quantifier": "all sequences of time steps, nonlinear and linear iterations and durations, all parameters, any number of processes", "why_tests_cant": "Times cannot be tested, and that a counter is reset in each print and nowhere else is a statement about all sequences of calls.", "anchors": ["source/navier_stokes.cc: solve_system, solve_nonlinear_system (solver_timers)", "source/navier_stokes_matrix.cc: vmult, get_matvec_statistics", "source/navier_stokes_preconditioner.cc: vmult, get_timer_statistics, solve_projection_system"]}
{"id": "C127", "title": "Runs on meshes with hanging nodes, periodic boundaries and symmetry planes solve the discrete Navier-Stokes equations in the conforming space", "statement": "With BDF-2 or implicit Euler, the loop over the time steps ends at the final time. After every step, successful or not, velocity and pressure fulfil all hanging node, periodicity and symmetry conditions and the prescribed values hold at every unconstrained unknown. After a step that reports success (with the linearized formulations: after a step whose linear systems were solved to their tolerance) the weak form of the momentum and continuity equations at the new time, with the difference quotient of the computed fields, open-boundary pressures and user forces, is fulfilled for every conforming test velocity and pressure up to the nonlinear (or linear) tolerance times the length of their coefficient vectors. A step of the fully implicit formulations reports failure only if the fields it leaves violate the weak form for some conforming test functions", "quantifier": "all meshes, shape functions and resolved constraints, boundary data, step-size histories, behaviours of the linear solvers, user forces, all steps", "why_tests_cant": "A test compares an output on one refined mesh; that the condensed residual controls the equations for every conforming test function, after every step, is a statement about all of them.", "anchors": ["source/navier_stokes.cc: initialize_data_structures, init_time_advance, evaluate_time_step, compute_residual, solve_system, solve_nonlinear_system, apply_boundary_conditions", "source/navier_stokes_matrix.cc: local_operation, residual, apply_pressure_shift"]}
{"id": "C128", "title": "The memory report of the flow solver covers what the solver stores", "statement": "print_memory_consumption() lists every data structure of the flow solver (degrees of freedom, cell data, constraints, linearized velocities, coefficients, matrices, preconditioners, vectors) once, on the first process only, and memory_consumption() is not less than the memory these data structures occupy", "quantifier": "all mesh sizes, vectorization widths, linearization variants, constant and variable coefficients, preconditioner types, states before and after the set-up of the preconditioner", "why_tests_cant": "A test sees one number for one configuration, and any number looks plausible; which configurations are covered is a statement about the sum over all data structures.", "anchors": ["source/navier_stokes.cc: memory_consumption, print_memory_consumption", "source/navier_stokes_matrix.cc: memory_consumption, print_memory_consumption, initialize, fix_linearization_point", "source/navier_stokes_preconditioner.cc: memory_consumption, print_memory_consumption"]}
