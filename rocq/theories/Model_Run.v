(** * A whole run of the flow solver with the coupled schemes
    The pieces modelled in Model_TimeStepping, Model_NSOperator, Model_NonlinearSolver and Model_BoundaryValues are put together here the way
    source/navier_stokes.cc:659-780 (init_time_advance, advance_time_step, evaluate_time_step), 784-803 (compute_residual), 835-1045
    (solve_nonlinear_system) do it, with the loop of the main programs around it.

    Simplifications: exact real arithmetic, one process; no hanging nodes and no symmetry planes (all lines of constraints_u are Dirichlet
    lines, all lines of constraints_p fix an unknown to zero); the coefficients at the quadrature points do not change in time; the Krylov
    solvers, the preconditioner and the value the pressure is shifted by are arbitrary inputs; release mode. *)
From Coq Require Import Reals List Bool Arith ZArith.
From Verif Require Import Num SumR Model_Parameters Model_TimeStepping Model_NonlinearSolver Model_NSOperator Model_BoundaryValues.
Import ListNotations.
Open Scope R_scope.

(** velocity and pressure block of a block vector *)
Definition field := (vec * vec)%type.
(** BlockVector::operator+= (navier_stokes.cc:890) *)
Definition field_add (x y : field) : field := (fun i => fst x i + fst y i, fun i => snd x i + snd y i).
Definition field_zero : field := (fun _ => 0, fun _ => 0).

(** what the integration of a cell sees at a quadrature point apart from the solution vectors: JxW, shape functions, coefficients *)
Record site := MkSite { st_JxW : R; st_phi : nat -> vec; st_dphi : nat -> ten; st_psi : nat -> R; st_rho : R; st_mu : R; st_damping : R }.

Section Run.
Context {point : Type}.
Record problem := MkProblem {
  pb_fp : flow_params RNum;
  pb_dim : nat; pb_nu : nat; pb_np : nat;
  pb_sites : list site;
  pb_conditions : conditions point; pb_faces : list (bface point);
  pb_open : nat -> option (R -> point -> R); pb_ofaces : list (oface point);
  pb_con_p : nat -> bool;
  pb_m0 : option mode; pb_m1 : option mode;         (* pressure_constant_modes, navier_stokes_matrix.cc:127-167 *)
  pb_fix : bool }.                                   (* !boundary->pressure_fix.empty() *)

Definition no_hanging : nat -> option (list (nat * R)) := fun _ => None.
Definition pb_con_u (pb : problem) : nat -> bool := on_dirichlet (pb_conditions pb) (pb_faces pb).

(** navier_stokes_matrix.cc:620-653: the clock values and parameters used by local_operation *)
Definition setting_at (pb : problem) (c : clock RNum) : setting :=
  MkSetting (pb_dim pb) (pb_nu pb) (pb_np pb) (pb_con_u pb) (pb_con_p pb) (fp_physical_type (pb_fp pb)) (fp_linearization (pb_fp pb))
    (fp_beta (pb_fp pb)) (weight c) (weight_old c) (weight_old_old c) (tau1 c) (factor_extrapol_old c) (factor_extrapol_old_old c)
    (fp_tau_grad_div (pb_fp pb)).
(** lines 673-686: solution_old.block(0) and solution_old_old.block(0) are evaluated at the points of the cell *)
Definition point_at (pb : problem) (old oo : vec) (s : site) : qpoint :=
  let value (u : vec) : vec := fun d => sumn (pb_nu pb) (fun j => u j * st_phi s j d) in
  let gradient (u : vec) : ten := fun d e => sumn (pb_nu pb) (fun j => u j * st_dphi s j d e) in
  MkPoint (st_JxW s) (st_phi s) (st_dphi s) (st_psi s) (st_rho s) (st_mu s) (st_damping s) (value old) (gradient old) (value oo) (gradient oo).
Definition nothing_stored : stored := (fun _ => 0, fun _ _ => 0).

(** navier_stokes.cc:1259-1317: const_rhs.block(0); block(1) is zero *)
Definition const_rhs_at (pb : problem) (time : R) : vec :=
  const_rhs (pb_dim pb) (pb_open pb) time (constraints_u (pb_conditions pb) (pb_faces pb) no_hanging) (pb_ofaces pb) (fun _ => 0).

(** navier_stokes.cc:784-790: system_rhs for a solution [x]; the second component is linearized_velocities afterwards.  The content of
    linearized_velocities before the call does not enter (C24), it is set to zero here. *)
Definition system_rhs (pb : problem) (c : clock RNum) (user old oo x : field) : field * list (qpoint * stored) :=
  residual (setting_at pb c) (pb_m0 pb) (pb_m1 pb) (map (fun s => (point_at pb (fst old) (fst oo) s, nothing_stored)) (pb_sites pb))
    (const_rhs_at pb (now c)) (fun _ => 0) (fst user) (snd user) (fst x) (snd x).
(** the matrix of the linear systems after that call *)
Definition system_matrix (pb : problem) (c : clock RNum) (user old oo x : field) (d : field) : field :=
  vmult (setting_at pb c) (pb_m0 pb) (pb_m1 pb) (snd (system_rhs pb c user old oo x)) (fst d) (snd d).
(** lines 792-794 *)
Definition l2_norm (n : nat) (v : vec) : R := sqrt (sumn n (fun i => v i * v i)).
Definition residual_norm (pb : problem) (r : field) : R :=
  let res_u := l2_norm (pb_nu pb) (fst r) in let res_p := l2_norm (pb_np pb) (snd r) in sqrt (res_u * res_u + res_p * res_p).
Definition compute_residual (pb : problem) (c : clock RNum) (user old oo x : field) : R :=
  residual_norm pb (fst (system_rhs pb c user old oo x)).
(** lines 643-644: constraints_u.distribute, constraints_p.distribute on solution_update *)
Definition distribute_update (pb : problem) (d : field) : field :=
  (distribute (constraints_u (pb_conditions pb) (pb_faces pb) no_hanging) (fst d), masked (pb_con_p pb) (snd d)).
(** lines 986-1045 and navier_stokes_matrix.cc:211-217; [amount] is the value of [shift] found for the solution *)
Definition shift_pressure (pb : problem) (amount : field -> R) (x : field) : field :=
  if pb_fix pb then match pb_m0 pb with Some m => (fst x, fun i => snd x i + amount x * mode_vector m i) | None => x end else x.

(** what comes from outside in one time step: the Krylov solvers, the value of the shift, user_rhs *)
Record environment := MkEnv {
  e_cheap : Z -> R -> field -> nat -> krylov (N:=RNum) field; e_strong : Z -> R -> field -> nat -> krylov (N:=RNum) field;
  e_projection : nat -> krylov (N:=RNum) field; e_shift : field -> R; e_user : field }.

Record state := MkState { r_clock : clock RNum; r_sol : field; r_old : field; r_oo : field; r_prec_state : prec_state }.

(** lines 674-688: extrapolation of both blocks (no projection) *)
Definition extrapolated (c : clock RNum) (x y : field) : field :=
  (fun i => extrapolate (N:=RNum) c (fst x i) (fst y i), fun i => extrapolate (N:=RNum) c (snd x i) (snd y i)).
(** lines 659-736 [init_time_advance] without the output *)
Definition init_time_advance (pb : problem) (s : state) : state :=
  let c := next (N:=RNum) (r_clock s) in
  let guess := extrapolated c (r_sol s) (r_old s) in
  MkState c (apply_boundary_conditions_u (pb_conditions pb) (now c) (pb_faces pb) no_hanging (fst guess), snd guess) (r_sol s) (r_old s) (r_prec_state s).
(** lines 561-653, 784-803 as the nonlinear iteration of Model_NonlinearSolver sees them *)
Definition oracles_at (pb : problem) (e : environment) (s : state) : oracles (N:=RNum) field :=
  MkOracles (N:=RNum) field (e_cheap e) (e_strong e) (e_projection e) (distribute_update pb) (compute_residual pb (r_clock s) (e_user e) (r_old s) (r_oo s)).
(** lines 740-780 [advance_time_step], [evaluate_time_step]; second result: the pair that is returned, (0, 0) after the warning *)
Definition advance_time_step (pb : problem) (e : environment) (s : state) : state * (Z * Z) :=
  let s := init_time_advance pb s in
  let r := evaluate_time_step (N:=RNum) field field_add field_zero (oracles_at pb e s) (shift_pressure pb (e_shift e)) (pb_fp pb) (r_prec_state s)
             (step_no (r_clock s)) (r_sol s) in
  (MkState (r_clock s) (r_solution _ (fst r)) (r_old s) (r_oo s) (r_prec _ (fst r)), snd r).

(** the loop of the main programs (e.g. tests/beltrami.cc:450-456): while (at_end() == false) advance_time_step() *)
Fixpoint run_steps (pb : problem) (env : nat -> environment) (n : nat) (s : state) : state :=
  match n with O => s | S n => let s := run_steps pb env n s in fst (advance_time_step pb (env n) s) end.
(** the pair returned by the (n+1)-st call *)
Definition report (pb : problem) (env : nat -> environment) (n : nat) (s : state) : Z * Z :=
  snd (advance_time_step pb (env n) (run_steps pb env n s)).
End Run.
Arguments problem : clear implicits.
