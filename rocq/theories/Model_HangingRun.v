(** * A run of the flow solver on a mesh with hanging nodes, periodic boundaries and symmetry planes
    As Model_Run, but with general linear constraints between unknowns: source/navier_stokes.cc:241-351 (constraints of both fields),
    643-644 (constraints on the update), 659-780 (time step), 782-803 (residual), 986-1045 (pressure level), 1246-1317 (boundary values,
    open boundaries); source/navier_stokes_matrix.cc:266-293, 660-700 (cell integrals).

    Simplifications: those of Model_Run apart from the constraints; the integrals of a cell are condensed with the constraints
    (FEEvaluation::distribute_local_to_global) after the sum over all cells, which is the same by linearity; the lines of the constraints
    are the resolved ones. *)
From Coq Require Import Reals List Bool Arith ZArith.
From Verif Require Import Num SumR Model_Parameters Model_TimeStepping Model_NonlinearSolver Model_NSOperator Model_BoundaryValues Model_Run.
Import ListNotations.
Open Scope R_scope.

Section HangingRun.
Context {point : Type}.
(** the problem, hanging_node_constraints_u (hanging nodes, periodicity, symmetry), constraints_p = hanging_node_constraints_p
    (navier_stokes.cc:241-299, 346-350).  pb_con_p of the problem is not used *)
Record hproblem := MkHanging { h_pb : problem point; h_u : lines; h_p : lines }.
(** constraints_u, lines 301-340 *)
Definition lines_u (h : hproblem) : lines := constraints_u (pb_conditions (h_pb h)) (pb_faces (h_pb h)) (h_u h).

(** distribute_local_to_global of integrals [raw] *)
Definition condense (n : nat) (con : lines) (raw : vec) : vec :=
  fun g => sumn n (fun i => suml (expand con i) (fun mw => if Nat.eqb (fst mw) g then snd mw * raw i else 0)).
(** the integrals before that: local_operation (navier_stokes_matrix.cc:660-700) for all shape functions; the values of the solutions
    are read with read_dof_values_plain (lines 509, 541, 677, 682), constraints do not enter.  The sign is that after
    system_rhs.sadd(-1, ..), line 292 *)
Definition without_constraints (pb : problem point) : problem point :=
  MkProblem (pb_fp pb) (pb_dim pb) (pb_nu pb) (pb_np pb) (pb_sites pb) (pb_conditions pb) [] (fun _ => None) [] (fun _ => false) None None false.
Definition cell_terms (h : hproblem) (c : clock RNum) (old oo x : field) : field :=
  fst (system_rhs (without_constraints (h_pb h)) c field_zero old oo x).
(** navier_stokes.cc:1259-1317 *)
Definition const_rhs_h (h : hproblem) (time : R) : vec :=
  const_rhs (pb_dim (h_pb h)) (pb_open (h_pb h)) time (lines_u h) (pb_ofaces (h_pb h)) (fun _ => 0).
(** navier_stokes.cc:782-790, navier_stokes_matrix.cc:266-293: const_rhs, residual, projection of the mean pressure equations *)
Definition system_rhs_h (h : hproblem) (c : clock RNum) (user old oo x : field) : field :=
  let pb := h_pb h in let raw := cell_terms h c old oo x in
  (fun g => - const_rhs_h h (now c) g + condense (pb_nu pb) (lines_u h) (fst raw) g + fst user g,
   average_projection (setting_at pb c) (pb_m0 pb) (pb_m1 pb) (fun g => condense (pb_np pb) (h_p h) (snd raw) g + snd user g)).
(** the matrix of the linear systems after that call, navier_stokes_matrix.cc:223-262: read_dof_values resolves the constraints (lines 501-535),
    the integrals are condensed, the rows of constrained unknowns are those of the (negative) identity *)
Definition system_matrix_h (h : hproblem) (c : clock RNum) (old oo x d : field) : field :=
  let pb := h_pb h in
  let raw := system_matrix (without_constraints pb) c field_zero old oo x (distribute (lines_u h) (fst d), distribute (h_p h) (snd d)) in
  (fun g => if is_free (lines_u h) g then condense (pb_nu pb) (lines_u h) (fst raw) g else fst d g,
   average_projection (setting_at pb c) (pb_m0 pb) (pb_m1 pb)
     (fun g => if is_free (h_p h) g then condense (pb_np pb) (h_p h) (snd raw) g else - snd d g)).
(** lines 792-794 *)
Definition compute_residual_h (h : hproblem) (c : clock RNum) (user old oo x : field) : R :=
  residual_norm (h_pb h) (system_rhs_h h c user old oo x).
(** lines 643-644 *)
Definition distribute_update_h (h : hproblem) (d : field) : field := (distribute (lines_u h) (fst d), distribute (h_p h) (snd d)).
(** lines 986-1045; navier_stokes_matrix.cc:211-217 *)
Definition shift_pressure_h (h : hproblem) (amount : field -> R) (x : field) : field :=
  if pb_fix (h_pb h) then
    match pb_m0 (h_pb h) with Some m => (fst x, distribute (h_p h) (fun i => snd x i + amount x * mode_vector m i)) | None => x end
  else x.
(** lines 659-736 and 1246-1253 *)
Definition init_time_advance_h (h : hproblem) (s : state) : state :=
  let c := next (N:=RNum) (r_clock s) in
  let guess := extrapolated c (r_sol s) (r_old s) in
  MkState c (apply_boundary_conditions_u (pb_conditions (h_pb h)) (now c) (pb_faces (h_pb h)) (h_u h) (fst guess), snd guess)
    (r_sol s) (r_old s) (r_prec_state s).
(** lines 561-653, 784-803 *)
Definition oracles_h (h : hproblem) (e : environment) (s : state) : oracles (N:=RNum) field :=
  MkOracles (N:=RNum) field (e_cheap e) (e_strong e) (e_projection e) (distribute_update_h h)
    (compute_residual_h h (r_clock s) (e_user e) (r_old s) (r_oo s)).
(** lines 740-780 *)
Definition advance_time_step_h (h : hproblem) (e : environment) (s : state) : state * (Z * Z) :=
  let s := init_time_advance_h h s in
  let r := evaluate_time_step (N:=RNum) field field_add field_zero (oracles_h h e s) (shift_pressure_h h (e_shift e)) (pb_fp (h_pb h))
             (r_prec_state s) (step_no (r_clock s)) (r_sol s) in
  (MkState (r_clock s) (r_solution _ (fst r)) (r_old s) (r_oo s) (r_prec _ (fst r)), snd r).
(** the loop of the main programs *)
Fixpoint run_h (h : hproblem) (env : nat -> environment) (n : nat) (s : state) : state :=
  match n with O => s | S n => let s := run_h h env n s in fst (advance_time_step_h h (env n) s) end.
Definition report_h (h : hproblem) (env : nat -> environment) (n : nat) (s : state) : Z * Z := snd (advance_time_step_h h (env n) (run_h h env n s)).
End HangingRun.
Arguments hproblem : clear implicits.
