(** * The sections of the timing table

    Every solver reports its run time in a table of named sections.  The
    sections are opened and closed on one shared TimerOutput object (deal.II):
    by hand with enter_subsection / leave_subsection, or for the life time of
    a TimerOutput::Scope object.  This file models which sections are open at
    any moment of any execution, with every exception that the called library
    code may raise.

    TimerOutput itself is deal.II code and is not in /repo; its documented
    behaviour in a debug build is the part trusted here:
    - enter_subsection fails (the program is aborted) when the section is
      already open, otherwise it appends the name to the open sections;
    - leave_subsection() without a name fails when nothing is open, otherwise
      it closes the section opened last;
    - the destructor of a Scope closes the section of the given name.

    Simplifications: run-time conditions that depend on data not modelled here
    (parameters, residuals, step counters) are a nondeterministic [Choice] or
    [Loop], so the model has all the executions of the program and possibly
    more.  Called code without sections of its own is a [Work] step that may
    return or raise an error.  Times are not modelled. *)
From Coq Require Import String List Bool Arith.
Import ListNotations.
Open Scope string_scope.
Open Scope list_scope.

(** include/adaflo/navier_stokes.h (ExcNavierStokesNoConvergence), deal.II's
    SolverControl::NoConvergence, and any other exception (AssertThrow) *)
Inductive exc := NonlinearNoConvergence | LinearNoConvergence | OtherError.

Inductive prog :=
| Skip
| Work (what : string)                 (* code without sections *)
| Raise (e : exc)                      (* throw / a failing AssertThrow *)
| Enter (s : string)                   (* timer->enter_subsection (s) *)
| Leave                                (* timer->leave_subsection () *)
| Scope (s : string) (p : prog)        (* { TimerOutput::Scope t(timer, s); p } *)
| Seq (p q : prog)
| Choice (p q : prog)
| Loop (p : prog)
| Try (p : prog) (e : exc) (h : prog). (* try { p } catch (e) { h } *)

Declare Scope prog_scope.
Delimit Scope prog_scope with prog.
Notation "p ;; q" := (Seq p q) (at level 55, right associativity) : prog_scope.
Open Scope prog_scope.

(** ** Executions *)
Inductive event :=
| Began (s : string) | Ended (s : string)
| Did (what : string) (open : list string).   (* work, and the sections open meanwhile *)

Inductive outcome := Done | Thrown (e : exc) | Aborted.

(** the open sections without the first one of name s *)
Fixpoint close (s : string) (l : list string) : list string :=
  match l with
  | [] => []
  | x :: r => if String.eqb x s then r else x :: close s r
  end.

(** [exec p a t o b]: started with the open sections a (oldest first), the
    program can produce the events t, finish with the outcome o and leave the
    sections b open. *)
Inductive exec : prog -> list string -> list event -> outcome -> list string -> Prop :=
| x_skip a : exec Skip a [] Done a
| x_work w a : exec (Work w) a [Did w a] Done a
| x_work_linear w a : exec (Work w) a [Did w a] (Thrown LinearNoConvergence) a
| x_work_other w a : exec (Work w) a [Did w a] (Thrown OtherError) a
| x_raise e a : exec (Raise e) a [] (Thrown e) a
| x_enter s a : ~ In s a -> exec (Enter s) a [Began s] Done (a ++ [s])
| x_enter_open s a : In s a -> exec (Enter s) a [] Aborted a
| x_leave a s : exec Leave (a ++ [s]) [Ended s] Done (close s (a ++ [s]))
| x_leave_none : exec Leave [] [] Aborted []
| x_scope s p a t o b : ~ In s a -> exec p (a ++ [s]) t o b -> o <> Aborted ->
    exec (Scope s p) a (Began s :: t ++ [Ended s]) o (close s b)
| x_scope_abort s p a t b : ~ In s a -> exec p (a ++ [s]) t Aborted b ->
    exec (Scope s p) a (Began s :: t) Aborted b
| x_scope_open s p a : In s a -> exec (Scope s p) a [] Aborted a
| x_seq p q a t b u o c : exec p a t Done b -> exec q b u o c ->
    exec (p ;; q) a (t ++ u) o c
| x_seq_stop p q a t o b : exec p a t o b -> o <> Done -> exec (p ;; q) a t o b
| x_left p q a t o b : exec p a t o b -> exec (Choice p q) a t o b
| x_right p q a t o b : exec q a t o b -> exec (Choice p q) a t o b
| x_loop_end p a : exec (Loop p) a [] Done a
| x_loop p a t b u o c : exec p a t Done b -> exec (Loop p) b u o c ->
    exec (Loop p) a (t ++ u) o c
| x_loop_stop p a t o b : exec p a t o b -> o <> Done -> exec (Loop p) a t o b
| x_try p e h a t o b : exec p a t o b -> o <> Thrown e -> exec (Try p e h) a t o b
| x_catch p e h a t b u o c : exec p a t (Thrown e) b -> exec h b u o c ->
    exec (Try p e h) a (t ++ u) o c.

(** ** NavierStokes, source/navier_stokes.cc *)

(** distribute_dofs, lines 192-224 *)
Definition ns_distribute_dofs : prog :=
  Enter "NS distribute DoFs." ;; Work "distribute dofs" ;; Leave.

(** initialize_data_structures, lines 230-360; the flag is system_is_setup.
    The AssertThrow checks of the boundary conditions are a [Choice] *)
Definition ns_initialize_data_structures (system_is_setup : bool) : prog :=
  if system_is_setup then Skip else
  Enter "NS setup matrix and vectors." ;;
  Work "hanging node constraints" ;;
  Choice Skip (Raise OtherError) ;;
  Work "boundary constraints" ;;
  Work "preconditioner sparsity" ;;
  Leave.

(** initialize_matrix_free, lines 398-503 *)
Definition ns_initialize_matrix_free : prog := Work "matrix-free setup".

(** setup_problem, lines 366-393 *)
Definition ns_setup_problem : prog :=
  Work "global refinement" ;;
  ns_distribute_dofs ;;
  ns_initialize_data_structures false ;;
  ns_initialize_matrix_free ;;
  Work "initial condition".

(** assemble_preconditioner, lines 508-517 *)
Definition ns_assemble_preconditioner : prog :=
  Enter "NS assemble preconditioner." ;; Work "preconditioner matrices" ;; Leave.

(** build_preconditioner, lines 523-555 *)
Definition ns_build_preconditioner : prog :=
  ns_assemble_preconditioner ;;
  Enter "NS build preconditioner." ;; Work "preconditioner" ;; Leave.

(** NavierStokesPreconditioner::solve_projection_system,
    source/navier_stokes_preconditioner.cc 779-846 *)
Definition ns_solve_projection_system : prog :=
  Scope "NS solve velocity" (Work "velocity solve") ;;
  Scope "NS solve pressure" (Work "pressure solve").

(** solve_system, lines 561-653: the inner try is lines 622-630 *)
Definition ns_solve_system : prog :=
  Choice ns_solve_projection_system
  (Enter "NS solve system." ;;
   Try (Work "linear solve") LinearNoConvergence
     (Choice Skip (Try (Work "linear solve") LinearNoConvergence Skip)) ;;
   Work "distribute constraints" ;;
   Leave).

(** apply_boundary_conditions, lines 1216-1318 *)
Definition ns_apply_boundary_conditions : prog := Work "boundary values".

(** init_time_advance, lines 659-745 *)
Definition ns_init_time_advance : prog :=
  Work "extrapolation" ;;
  Enter "NS apply boundary conditions." ;;
  ns_apply_boundary_conditions ;;
  Leave.

(** compute_residual, lines 781-801; compute_initial_residual, lines 806-829 *)
Definition ns_compute_residual : prog :=
  Scope "NS assemble nonlinear residual." (Work "residual").
Definition ns_compute_initial_residual : prog := ns_compute_residual.

(** the pressure fix, lines 984-1042: line 986 creates an unnamed
    TimerOutput::Scope, which is destroyed at the end of the statement *)
Definition ns_fix_pressure : prog :=
  Scope "NS apply boundary conditions." Skip ;; Work "pressure fix".

(** solve_nonlinear_system, lines 835-1159: the loop 851-931, the pressure fix,
    the pressure boundary values of the projection scheme 1047-1072 and the
    final AssertThrow 1156 *)
Definition ns_solve_nonlinear_system : prog :=
  Loop (Choice Skip ns_build_preconditioner ;;
        ns_solve_system ;;
        Choice Skip ns_compute_residual) ;;
  Choice Skip ns_fix_pressure ;;
  Choice Skip (Work "pressure boundary values") ;;
  Choice Skip (Raise NonlinearNoConvergence).

(** evaluate_time_step, lines 761-775; advance_time_step, lines 751-755 *)
Definition ns_evaluate_time_step : prog :=
  ns_compute_initial_residual ;;
  Try ns_solve_nonlinear_system NonlinearNoConvergence Skip.
Definition ns_advance_time_step : prog :=
  ns_init_time_advance ;; ns_evaluate_time_step.

(** compute_initial_stokes_field, lines 1164-1210: no try block *)
Definition ns_compute_initial_stokes_field : prog :=
  ns_apply_boundary_conditions ;;
  Choice Skip (ns_compute_initial_residual ;; ns_solve_nonlinear_system).

(** refine_grid_pressure_based, lines 1324-1369 *)
Definition ns_refine_grid_pressure_based : prog :=
  Work "mark cells" ;; Work "refine mesh" ;; ns_distribute_dofs.

(** output_solution, lines 1436-1459 *)
Definition ns_output_solution : prog := Work "write output".

(** ** TwoPhaseBaseAlgorithm, source/two_phase_base.cc; the timer is shared
       with the Navier-Stokes solver (lines 80-88) *)

(** distribute_dofs, lines 202-225 *)
Definition tp_distribute_dofs : prog := ns_distribute_dofs ;; Work "distribute dofs".

(** initialize_data_structures, lines 230-309; always called after
    distribute_dofs, which clears system_is_setup (navier_stokes.cc:221) *)
Definition tp_initialize_data_structures : prog :=
  ns_initialize_data_structures false ;; Work "matrix-free setup" ;;
  ns_initialize_matrix_free ;; Work "cell diameters".

(** refine_grid, lines 396-437, with the virtual mark_cells_for_refinement *)
Definition tp_refine_grid (mark : prog) : prog :=
  mark ;;
  Choice Skip
  (Enter "Refine grid." ;;
   Work "prepare refinement" ;;
   Work "refine mesh" ;;
   tp_distribute_dofs ;;
   tp_initialize_data_structures ;;
   Work "interpolate solution" ;;
   Leave).

(** setup_problem, lines 121-196 *)
Definition tp_setup_problem (mark : prog) : prog :=
  Enter "TP setup problem." ;;
  Work "global refinement" ;;
  tp_distribute_dofs ;;
  tp_initialize_data_structures ;;
  Work "initial condition" ;;
  Loop (tp_refine_grid mark ;; Work "initial condition") ;;
  Choice Skip ns_compute_initial_stokes_field ;;
  Leave.

(** mark_cells_for_refinement of the base class, lines 327-390 *)
Definition tp_mark_cells : prog :=
  Choice Skip (Enter "Probe grid refinement." ;; Work "mark cells" ;; Leave).

(** init_time_advance, lines 443-478 *)
Definition tp_init_time_advance : prog := ns_init_time_advance ;; Work "extrapolation".

(** output_solution, lines 552-592 *)
Definition tp_output_solution : prog :=
  Choice Skip
  (Choice Skip (Raise OtherError) ;;
   Enter "TP create output." ;; Work "write output" ;; Leave).

(** ** The level set solvers *)

(** the virtual functions of the two level set solvers *)
Record level_set := MkLS {
  ls_heaviside : prog; ls_normal : prog; ls_curvature : prog;
  ls_force : prog; ls_advance : prog; ls_reinitialize : prog }.

(** LevelSetOKZSolver, source/level_set_okz.cc: compute_heaviside 481-540,
    compute_normal 450-454, compute_curvature 461-474, compute_force 413-431,
    advance_concentration 439-443, reinitialize 546-562 with the call-back in
    level_set_okz_reinitialization.cc:293 *)
Definition okz_heaviside := Scope "LS compute Heaviside." (Work "heaviside").
Definition okz_normal := Scope "LS compute normal." (Work "normal").
Definition okz_curvature :=
  okz_normal ;; Scope "LS compute curvature." (Work "curvature").
Definition okz : level_set := {|
  ls_heaviside := okz_heaviside;
  ls_normal := okz_normal;
  ls_curvature := okz_curvature;
  ls_force := okz_heaviside ;; okz_curvature ;;
              Scope "LS compute force." (Work "force");
  ls_advance := Scope "LS advance concentration."
                  (Try (Work "level set solve") LinearNoConvergence
                       (Work "level set solve"));
  ls_reinitialize := Scope "LS reinitialization step."
                  (Loop (Choice Skip okz_normal ;; Work "reinitialization")) |}.

(** LevelSetOKZMatrixSolver, source/level_set_okz_matrix.cc: compute_heaviside
    846-905, compute_normal 613-716, compute_curvature 722-841, compute_force
    97-120, advance_concentration 373-606, reinitialize 911-1100 *)
Definition mat_heaviside := Scope "Compute Heaviside." (Work "heaviside").
Definition mat_normal := Choice Skip (Scope "Compute normal." (Work "normal")).
Definition mat_curvature :=
  mat_normal ;; Scope "Compute curvature." (Work "curvature").
Definition okz_matrix : level_set := {|
  ls_heaviside := mat_heaviside;
  ls_normal := mat_normal;
  ls_curvature := mat_curvature;
  ls_force := mat_heaviside ;; mat_curvature ;;
              Scope "Compute force." (Work "force");
  ls_advance := Scope "Advance concentration." (Work "level set solve");
  ls_reinitialize := Scope "Reinitialization."
                  (Loop (Choice Skip mat_normal ;; Work "reinitialization")) |}.

(** LevelSetBaseAlgorithm, source/level_set_base.cc: mark_cells_for_refinement
    297-413, setup_problem 146-154, advance_time_step 191-291, output_solution
    453-697 *)
Definition ls_mark_cells (L : level_set) : prog :=
  Choice Skip
  (Choice Skip (ls_normal L) ;;
   Scope "Probe grid refinement." (Work "mark cells")).
Definition ls_setup_problem (L : level_set) : prog :=
  tp_setup_problem (ls_mark_cells L) ;; ls_reinitialize L ;; ls_heaviside L.
Definition ls_refine_grid (L : level_set) : prog := tp_refine_grid (ls_mark_cells L).
Definition ls_advance_time_step (L : level_set) : prog :=
  tp_init_time_advance ;;
  Choice (Raise OtherError)
  (ls_advance L ;; ls_reinitialize L ;; ls_force L ;;
   ns_compute_initial_residual ;;
   Choice Skip (ls_reinitialize L ;; ls_force L ;; ns_compute_initial_residual) ;;
   Try ns_solve_nonlinear_system NonlinearNoConvergence Skip).
Definition ls_output_solution (L : level_set) : prog :=
  Choice Skip
  (Scope "Create output"
    (Choice Skip (ls_curvature L ;; ls_heaviside L) ;; Work "write output")).

(** ** PhaseFieldSolver, source/phase_field.cc and phase_field_local.cc *)

(** create_cahn_hilliard_preconditioner, phase_field.cc 240-311 *)
Definition pf_preconditioner : prog :=
  Enter "Cahn-Hilliard preconditioner." ;; Work "preconditioner" ;; Leave.
(** compute_force and compute_residual, phase_field_local.cc 423-465 *)
Definition pf_compute_force : prog := Enter "Compute force." ;; Work "force" ;; Leave.
Definition pf_compute_residual : prog :=
  Enter "Cahn-Hilliard residual." ;; Work "residual" ;; Leave.
(** solve_cahn_hilliard, phase_field.cc 414-459 *)
Definition pf_solve_cahn_hilliard : prog :=
  Enter "Cahn-Hilliard solve." ;;
  Try (Work "linear solve") LinearNoConvergence Skip ;;
  Work "distribute constraints" ;;
  Leave.
(** advance_cahn_hilliard, phase_field.cc 337-374 *)
Definition pf_advance_cahn_hilliard : prog :=
  Choice Skip pf_preconditioner ;;
  Choice (Raise OtherError)
  (Loop (pf_compute_residual ;; Choice Skip pf_solve_cahn_hilliard)).
(** advance_time_step, phase_field.cc 465-471 *)
Definition pf_advance_time_step : prog :=
  tp_init_time_advance ;; pf_advance_cahn_hilliard ;; pf_compute_force ;;
  ns_evaluate_time_step.
(** mark_cells_for_refinement, phase_field.cc 477-524 *)
Definition pf_mark_cells : prog :=
  Choice Skip (Enter "Probe grid refinement." ;; Work "mark cells" ;; Leave).
Definition pf_setup_problem : prog := tp_setup_problem pf_mark_cells.
Definition pf_refine_grid : prog := tp_refine_grid pf_mark_cells.

(** ** The sharp interface solvers, include/adaflo/sharp_interface.h 540-550
       and 815-833: all sections are those of the Navier-Stokes solver *)
Definition sharp_advance_time_step : prog :=
  Work "interface" ;; Work "force" ;; ns_advance_time_step.

(** ** The driven cavity program, applications/drivencavity.cc *)

(** output_results, lines 135-262: the processes of rank > 0 return at line 221 *)
Definition cavity_output_results (rank : nat) : prog :=
  Enter "Output solution." ;;
  Work "write output" ;;
  match rank with
  | O => Work "write profiles" ;; Leave
  | _ => Skip
  end.

(** run, lines 345-411, with n = adaptive_refinements + 1 passes *)
Definition cavity_pass (rank : nat) : prog :=
  ns_initialize_data_structures false ;;
  ns_initialize_matrix_free ;;
  ns_advance_time_step ;;
  cavity_output_results rank ;;
  ns_refine_grid_pressure_based.
Fixpoint repeated (n : nat) (p : prog) : prog :=
  match n with O => Skip | S k => p ;; repeated k p end.
Definition cavity_run (rank adaptive_refinements : nat) : prog :=
  Enter "Setup grid and initial condition." ;;
  Work "mesh" ;; Choice Skip (Raise OtherError) ;; ns_distribute_dofs ;;
  Leave ;;
  repeated (S adaptive_refinements) (cavity_pass rank).

(** ** The periodic channel program, applications/periodic_channel.cc 145-172
       and 308-395 *)
Definition channel_output_results : prog :=
  Enter "Output solution." ;; Work "write output" ;; Leave.
Definition channel_run : prog :=
  Enter "Setup grid and initial condition." ;;
  Work "mesh" ;; Choice Skip (Raise OtherError) ;; ns_distribute_dofs ;;
  Leave ;;
  ns_initialize_data_structures false ;;
  ns_initialize_matrix_free ;;
  Work "initial condition" ;;
  channel_output_results ;;
  Loop (ns_init_time_advance ;; Work "force" ;; ns_evaluate_time_step ;;
        channel_output_results).

(** ** The calls a user can make *)
Inductive api : prog -> Prop :=
| api_ns_distribute : api ns_distribute_dofs
| api_ns_initialize b : api (ns_initialize_data_structures b)
| api_ns_matrix_free : api ns_initialize_matrix_free
| api_ns_setup : api ns_setup_problem
| api_ns_build : api ns_build_preconditioner
| api_ns_solve : api ns_solve_system
| api_ns_init : api ns_init_time_advance
| api_ns_residual : api ns_compute_initial_residual
| api_ns_nonlinear : api ns_solve_nonlinear_system
| api_ns_evaluate : api ns_evaluate_time_step
| api_ns_advance : api ns_advance_time_step
| api_ns_stokes : api ns_compute_initial_stokes_field
| api_ns_refine : api ns_refine_grid_pressure_based
| api_ns_output : api ns_output_solution
| api_okz_setup : api (ls_setup_problem okz)
| api_okz_advance : api (ls_advance_time_step okz)
| api_okz_refine : api (ls_refine_grid okz)
| api_okz_output : api (ls_output_solution okz)
| api_mat_setup : api (ls_setup_problem okz_matrix)
| api_mat_advance : api (ls_advance_time_step okz_matrix)
| api_mat_refine : api (ls_refine_grid okz_matrix)
| api_mat_output : api (ls_output_solution okz_matrix)
| api_pf_setup : api pf_setup_problem
| api_pf_advance : api pf_advance_time_step
| api_pf_refine : api pf_refine_grid
| api_pf_output : api tp_output_solution
| api_sharp_advance : api sharp_advance_time_step.
