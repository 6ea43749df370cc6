(** * Model of the solver control flow of [adaflo::NavierStokes] (source/navier_stokes.cc) *)
From Coq Require Import ZArith QArith Bool List String.
From Verif Require Import Num Model_TimeStepping Model_Parameters.
Import ListNotations.
Open Scope Z_scope.

(** 32 bit arithmetic *)
Definition u32 (z : Z) : Z := z mod 4294967296.
Definition to_int (z : Z) : Z := let m := u32 z in if m <? 2147483648 then m else m - 4294967296.

Section Solver.
Context {N : Num}.
(** Block vectors of the linear algebra package: opaque, with addition. *)
Variable V : Type.
Variable vadd : V -> V -> V.
Variable vzero : V.

(** Outcome of one Krylov solver call of deal.II: number of iterations done (SolverControl::last_step),
    last residual, the iterate, and whether NoConvergence was thrown. *)
Record krylov := MkKrylov { k_steps : Z; k_value : N; k_iterate : V; k_converged : bool }.

(** The linear solvers, the residual norm, and the nonlinear physics are oracles:
    [cheap budget tol guess call], [strong budget tol guess call] are the two Krylov solvers of
    solve_system in its [call]-th use, [residual x] is compute_residual() (lines 784-803) for the
    solution x. *)
Record oracles := MkOracles {
  o_cheap : Z -> N -> V -> nat -> krylov;
  o_strong : Z -> N -> V -> nat -> krylov;
  o_projection : nat -> krylov;           (* solve_projection_system *)
  o_distribute : V -> V;                   (* constraints_{u,p}.distribute *)
  o_residual : V -> N }.

(** ** navier_stokes.cc:561-653 [solve_system] *)
Inductive stage := Cheap (budget : Z) (guess : V) (r : krylov) | Strong (budget : Z) (guess : V) (r : krylov)
                 | Projection (r : krylov).
Record linear_result := MkLin { l_update : V; l_iterations : Z; l_residual : N; l_stages : list stage }.

(** lines 571-573 *)
Definition budget_simple (fp : flow_params N) : Z :=
  Z.min (fp_iterations_before_inner_solvers fp) (fp_max_lin_iteration fp).
(** lines 575-579; signed overflow wraps here (undefined behaviour in C++) *)
Definition budget_strong (fp : flow_params N) : Z :=
  Z.max (to_int (to_int (fp_max_lin_iteration fp) - to_int (fp_iterations_before_inner_solvers fp))) 0.

Definition is_projection (l : linearization) : bool := match l with projection => true | _ => false end.
(** the fully implicit variants, which need a nonlinear iteration *)
Definition is_implicit (l : linearization) : bool :=
  match l with coupled_implicit_newton | coupled_implicit_picard => true | _ => false end.

Definition solve_system (o : oracles) (fp : flow_params N) (tol : N) (call : nat) : linear_result :=
  if is_projection (fp_linearization fp) then
    let r := o_projection o call in
    {| l_update := k_iterate r; l_iterations := k_steps r; l_residual := k_value r;
       l_stages := [Projection r] |}
  else
    let r1 := o_cheap o (budget_simple fp) tol vzero call in
    let s1 := Cheap (budget_simple fp) vzero r1 in
    if k_converged r1 then
      {| l_update := o_distribute o (k_iterate r1); l_iterations := u32 (k_steps r1 + 0);
         l_residual := k_value r1; l_stages := [s1] |}
    else if fp_iterations_before_inner_solvers fp <? fp_max_lin_iteration fp then
      let r2 := o_strong o (budget_strong fp) tol (k_iterate r1) call in
      {| l_update := o_distribute o (k_iterate r2); l_iterations := u32 (k_steps r1 + k_steps r2);
         l_residual := k_value r2; l_stages := [s1; Strong (budget_strong fp) (k_iterate r1) r2] |}
    else
      {| l_update := o_distribute o (k_iterate r1); l_iterations := u32 (k_steps r1 + 0);
         l_residual := k_value r1; l_stages := [s1] |}.

(** ** navier_stokes.cc:835-1159 [solve_nonlinear_system] *)
(** members steering the preconditioner updates, navier_stokes.h:294-297 *)
Record prec_state := MkPrec {
  n_iterations_last_prec_update : Z; time_step_last_prec_update : Z;
  update_preconditioner : bool; update_preconditioner_frequency : Z }.

(** lines 853-867 *)
Definition linear_tolerance (fp : flow_params N) (res : N) : N :=
  if fp_rel_lin_iteration fp then
    if nltb (nmul res (fp_tol_lin_iteration fp)) (nmul (nlit (5#10)) (fp_tol_nl_iteration fp))
       || negb (is_implicit (fp_linearization fp))
    then nmul (nlit (5#10)) (fp_tol_nl_iteration fp)
    else nmin (nmul (fp_tol_lin_iteration fp) res) (fp_tol_lin_iteration fp)
  else fp_tol_lin_iteration fp.

(** observable events of the iteration *)
Inductive nl_event :=
| BuildPreconditioner
| LinearSolve (tol : N) (r : linear_result)
| Residual (x : V) (res : N).

Definition is_stationary (t : physical_type) : bool :=
  match t with incompressible_stationary => true | _ => false end.
Definition ofZ (z : Z) : N := nlit (Qmake z 1).

(** lines 872-881: 0 = no build, 1 = regular build, 2 = premature build *)
Definition build_decision (fp : flow_params N) (ps : prec_state) (step_no step n_tot : Z) (premature : bool) : Z :=
  if (step =? 0) && update_preconditioner ps then 1
  else if (negb premature && (1 <? step_no) &&
           ngtb (ofZ n_tot) (nmul (nlit (15#10)) (ofZ (n_iterations_last_prec_update ps))))
       || (is_stationary (fp_physical_type fp) && (step mod 6 =? 1))
  then 2 else 0.

Record loop_state := MkLoop { ls_step : Z; ls_solution : V; ls_res : N; ls_n_tot : Z; ls_premature : bool;
                              ls_trace : list nl_event; ls_broke : bool }.

(** lines 850-932: the for loop; [fuel] is max_nl_iteration - step *)
Fixpoint nl_loop (fuel : nat) (o : oracles) (fp : flow_params N) (ps : prec_state) (step_no : Z)
    (s : loop_state) : loop_state :=
  match fuel with
  | O => s
  | S fuel =>
      let tol := linear_tolerance fp (ls_res s) in
      let b := build_decision fp ps step_no (ls_step s) (ls_n_tot s) (ls_premature s) in
      let premature := if (b =? 2) then true else ls_premature s in
      let r := solve_system o fp tol (Z.to_nat (ls_step s)) in
      let x := vadd (ls_solution s) (l_update r) in
      let n_tot := u32 (ls_n_tot s + l_iterations r) in
      let tr := (ls_trace s ++ (if b =? 0 then [] else [BuildPreconditioner]) ++ [LinearSolve tol r])%list in
      if negb (is_implicit (fp_linearization fp))
      then MkLoop (ls_step s) x (ls_res s) n_tot premature tr true
      else
        let res := o_residual o x in
        let tr := (tr ++ [Residual x res])%list in
        if nltb res (fp_tol_nl_iteration fp)
        then MkLoop (ls_step s) x res n_tot premature tr true
        else nl_loop fuel o fp ps step_no (MkLoop (ls_step s + 1) x res n_tot premature tr false)
  end.

(** lines 941-971: decision about the next preconditioner update (unsigned arithmetic) *)
Definition prec_after (ps : prec_state) (step_no n_tot : Z) (premature : bool) : prec_state :=
  let freq0 := if (0 <? update_preconditioner_frequency ps)
                  && (step_no mod (u32 (50 * update_preconditioner_frequency ps)) =? 0)
               then 0 else update_preconditioner_frequency ps in
  let '(nl, tl, u0) := if update_preconditioner ps then (n_tot, step_no, false)
                       else (n_iterations_last_prec_update ps, time_step_last_prec_update ps, false) in
  let more := ngtb (ofZ n_tot) (nmul (nlit (12#10)) (ofZ nl)) in
  let freq1 := if more && (premature || (u32 (2 * nl) <? n_tot)) then u32 (step_no - tl) else freq0 in
  let u1 := u0 || more in
  let u2 := u1 || ((tl <? 3) && (14 <? step_no)) || (step_no <? 2) in
  let u3 := u2 || (negb u2 && negb premature && (0 <? freq1) && (freq1 <=? u32 (step_no + 1 - tl))) in
  MkPrec nl tl u3 freq1.

(** the whole function; [shift] is the pressure correction of lines 986-1072 (applied to the solution in
    every case); [inl] = normal return, [inr] = ExcNavierStokesNoConvergence.
    For projection the members solution.block(1) and solution_update.block(1) are swapped first (lines
    842-843); this is part of the oracle's initial solution here. *)
Record nl_result := MkNL { r_solution : V; r_prec : prec_state; r_trace : list nl_event;
                           r_outcome : (Z * Z) + unit }.
Definition solve_nonlinear_system (o : oracles) (shift : V -> V) (fp : flow_params N) (ps : prec_state)
    (step_no : Z) (x0 : V) (initial_residual : N) : nl_result :=
  let s := nl_loop (Z.to_nat (fp_max_nl_iteration fp)) o fp ps step_no
                   (MkLoop 0 x0 initial_residual 0 false [] false) in
  {| r_solution := shift (ls_solution s);
     r_prec := prec_after ps step_no (ls_n_tot s) (ls_premature s);
     r_trace := ls_trace s;
     r_outcome := if ls_step s <? fp_max_nl_iteration fp then inl (u32 (ls_step s + 1), ls_n_tot s)
                  else inr tt |}.

(** ** navier_stokes.cc:761-780 [evaluate_time_step]: the exception is caught *)
Definition evaluate_time_step (o : oracles) (shift : V -> V) (fp : flow_params N) (ps : prec_state)
    (step_no : Z) (x0 : V) : nl_result * (Z * Z) :=
  let r := solve_nonlinear_system o shift fp ps step_no x0 (o_residual o x0) in
  (r, match r_outcome r with inl it => it | inr _ => (0, 0) end).

End Solver.

(** ** navier_stokes.cc:659-718 [init_time_advance]: the history vectors, entry by entry *)
Section History.
Context {N : Num}.
(** the vectors solution, solution_old, solution_old_old of one block: their local entries *)
Record history := MkHist { h_cur : list N; h_old : list N; h_old_old : list N }.

(** lines 674-688: loop over the entries *)
Fixpoint zip3 (c : clock N) (cur old : list N) : list N :=
  match cur, old with
  | x :: cur, y :: old => extrapolate c x y :: zip3 c cur old
  | _, _ => []
  end.
Definition shift_history (c : clock N) (h : history) : history :=
  MkHist (zip3 c (h_cur h) (h_old h)) (h_cur h) (h_old h).

(** lines 694-716: pressure block of the projection scheme; [upd] is solution_update.block(1) *)
Definition pressure_guess (c : clock N) (cur old old_old : N) : N :=
  nsub (nsub cur (nmul (ndiv (weight_old c) (weight c)) old))
       (nmul (ndiv (weight_old_old c) (weight c)) old_old).
(** the shift of the vectors around it: [shift_projection] in Model_Transfer.v *)

(** One time step of the coupled schemes: the clock advances, the history is shifted with the new clock,
    then boundary conditions and the nonlinear solver (here an arbitrary function of the guess and the
    step number) produce the new solution. *)
Definition advance (solve : Z -> list N -> list N) (s : clock N * history) : clock N * history :=
  let c := next (fst s) in
  let h := shift_history c (snd s) in
  (c, MkHist (solve (step_no c) (h_cur h)) (h_old h) (h_old_old h)).
Fixpoint advance_n (n : nat) (solve : Z -> list N -> list N) (s : clock N * history) : clock N * history :=
  match n with O => s | S n => advance_n n solve (advance solve s) end.

(** two_phase_base.cc:443-458 [TwoPhaseBaseAlgorithm::init_time_advance] for the level set blocks:
    solution_update = solution; if (step_size_old > 0) solution_update.sadd(s, a, solution_old), i.e.
    s * solution_update + a * solution_old *)
Fixpoint sadd (s a : N) (u x : list N) : list N :=
  match u, x with
  | y :: u, z :: x => nadd (nmul s y) (nmul a z) :: sadd s a u x
  | _, _ => []
  end.
Definition shift_two_phase (c : clock N) (h : history) : history :=
  let dt := step_size c in let dto := old_step_size c in
  let upd := if ngtb dto (nlit (0#1))
             then sadd (ndiv (nadd dt dto) dto) (ndiv (nopp dt) dto) (h_cur h) (h_old h)
             else h_cur h in
  MkHist upd (h_cur h) (h_old h).
End History.
Arguments history : clear implicits.

(** ** navier_stokes.cc:1164-1210 [compute_initial_stokes_field] *)
Section Stokes.
Context {N : Num}.
(** solver state: parameters, coefficient arrays of the matrix (viscosity, density, damping at the
    quadrature points; None = constant coefficients), flag *)
Record ns_state := MkNS { ns_fp : flow_params N; ns_coeff : option (list (N * N * N)); ns_update_prec : bool }.
Inductive throws (A : Type) := Normal (a : A) | Thrown (a : A).
Arguments Normal {A}. Arguments Thrown {A}.
Definition set_stokes (pt : physical_type) (pv : precondition_velocity) (rho : N) (fp : flow_params N) : flow_params N :=
  {| fp_dimension := fp_dimension fp; fp_global_refinements := fp_global_refinements fp;
     fp_adaptive_refinements := fp_adaptive_refinements fp;
     fp_use_anisotropic_refinement := fp_use_anisotropic_refinement fp;
     fp_use_simplex_mesh := fp_use_simplex_mesh fp; fp_physical_type := pt; fp_beta := fp_beta fp;
     fp_velocity_degree := fp_velocity_degree fp; fp_augmented_taylor_hood := fp_augmented_taylor_hood fp;
     fp_viscosity := fp_viscosity fp; fp_density := rho; fp_damping := fp_damping fp;
     fp_tau_grad_div := fp_tau_grad_div fp; fp_max_nl_iteration := fp_max_nl_iteration fp;
     fp_tol_nl_iteration := fp_tol_nl_iteration fp; fp_linearization := fp_linearization fp;
     fp_max_lin_iteration := fp_max_lin_iteration fp; fp_tol_lin_iteration := fp_tol_lin_iteration fp;
     fp_rel_lin_iteration := fp_rel_lin_iteration fp; fp_precondition_velocity := pv;
     fp_precondition_pressure := fp_precondition_pressure fp;
     fp_iterations_before_inner_solvers := fp_iterations_before_inner_solvers fp;
     fp_output_filename := fp_output_filename fp; fp_output_verbosity := fp_output_verbosity fp;
     fp_output_frequency := fp_output_frequency fp; fp_print_solution_fields := fp_print_solution_fields fp;
     fp_output_wall_times := fp_output_wall_times fp; fp_output_memory := fp_output_memory fp;
     fp_time_step_scheme := fp_time_step_scheme fp; fp_start_time := fp_start_time fp;
     fp_end_time := fp_end_time fp; fp_time_step_size_start := fp_time_step_size_start fp;
     fp_time_stepping_cfl := fp_time_stepping_cfl fp; fp_time_stepping_coef2 := fp_time_stepping_coef2 fp;
     fp_time_step_tolerance := fp_time_step_tolerance fp; fp_time_step_size_max := fp_time_step_size_max fp;
     fp_time_step_size_min := fp_time_step_size_min fp; fp_density_diff := fp_density_diff fp;
     fp_viscosity_diff := fp_viscosity_diff fp; fp_surface_tension := fp_surface_tension fp;
     fp_gravity := fp_gravity fp; fp_epsilon := fp_epsilon fp; fp_diffusion_length := fp_diffusion_length fp;
     fp_contact_angle := fp_contact_angle fp; fp_pressure_constraint := fp_pressure_constraint fp;
     fp_concentration_subdivisions := fp_concentration_subdivisions fp;
     fp_curvature_correction := fp_curvature_correction fp;
     fp_interpolate_grad_onto_pressure := fp_interpolate_grad_onto_pressure fp;
     fp_surface_tension_from_heaviside := fp_surface_tension_from_heaviside fp;
     fp_approximate_projections := fp_approximate_projections fp; fp_ch_do_newton := fp_ch_do_newton fp;
     fp_do_iteration := fp_do_iteration fp; fp_n_reinit_steps := fp_n_reinit_steps fp;
     fp_n_initial_reinit_steps := fp_n_initial_reinit_steps fp;
     fp_convection_stabilization := fp_convection_stabilization fp |}.

(** [norm_positive]: solution.block(0).l2_norm() > 0 after the boundary conditions.
    [solver_throws fp]: whether the nonlinear solve with parameters fp throws (NoConvergence of the
    nonlinear or of a linear solver); [prec_after_solve]: update flag after the solve. *)
Definition compute_initial_stokes_field (norm_positive : bool) (solver_throws : flow_params N -> bool)
    (prec_after_solve : bool) (s : ns_state) : throws ns_state :=
  if negb norm_positive then Normal s
  else
    let fp := ns_fp s in
    let fp_stokes := set_stokes stokes u_amg_linear (nlit (0#1)) fp in
    let coeff := match ns_coeff s with
                 | Some l => Some (map (fun _ => (fp_viscosity fp, nlit (0#1), nlit (0#1))) l)
                 | None => None
                 end in
    if solver_throws fp_stokes
    then Thrown (MkNS fp_stokes coeff prec_after_solve)
    else Normal (MkNS (set_stokes (fp_physical_type fp) (fp_precondition_velocity fp) (fp_density fp) fp_stokes)
                      coeff true).
End Stokes.
Arguments ns_state : clear implicits.
Arguments Normal {A}. Arguments Thrown {A}.

(** ** navier_stokes.cc:986-1040: the pressure shift for fix_pressure_constant.
    Each process has found, or not, a first boundary cell with index [dof_indices.back()] and distance
    prescribed - computed pressure at a point.  [minus_max] = -std::numeric_limits<double>::max(). *)
Section Shift.
Context {N : Num}.
Variable minus_max : N.
Definition LONG_MAX : Z := 9223372036854775807.
Definition local_distance (p : option (Z * N)) : Z * N :=
  match p with Some d => d | None => (LONG_MAX, nlit (0#1)) end.
Definition zmax_list (l : list Z) : Z := match l with [] => 0 | x :: t => fold_left Z.max t x end.
Definition nmax_list (l : list N) : N := match l with [] => nlit (0#1) | x :: t => fold_left nmax t x end.
(** [None] = AssertThrow *)
Definition pressure_shift (procs : list (option (Z * N))) : option N :=
  let d := map local_distance procs in
  let min_index := - zmax_list (map (fun p => - fst p) d) in
  if min_index =? LONG_MAX then None
  else Some (nmax_list (map (fun p => if fst p =? min_index then snd p else minus_max) d)).
End Shift.
