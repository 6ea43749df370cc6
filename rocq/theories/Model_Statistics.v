(** * The statistics of the flow solver: calls and wall-clock times

    The solver counts its nonlinear solves, linear solves, products with the
    system matrix and applications of the block preconditioner, and adds up
    the wall-clock time of each; every now and then it prints the sums and
    starts again at zero.

    One process is modelled; the clock is a real number that only the steps
    below advance, so a [Timer] is the clock value it was started with
    (deal.II Timer::wall_time, trusted).  Counters are natural numbers (the
    code has unsigned int).  An exception other than the NoConvergence that
    solve_system catches ends the execution; such executions are not
    modelled. *)
From Coq Require Import String Reals List Bool Arith ZArith.
Import ListNotations.
Open Scope R_scope.

(** std::pair<unsigned int, double>, value-initialized to zero *)
Record tally := MkTally { calls : nat; spent : R }.
Definition zero_tally : tally := MkTally 0 0.
(** t.second += time.wall_time(); t.first++ *)
Definition record_call (elapsed : R) (t : tally) : tally := MkTally (S (calls t)) (spent t + elapsed).

(** solver_timers[1], solver_timers[0] (navier_stokes.h:300), matvec_timer (navier_stokes_matrix.h:282), precond_timer
    (navier_stokes_preconditioner.h:229); the entries of the last: 0 velocity, 1 divergence, 2 pressure mass, 3 pressure Poisson, 4 all *)
Record stats := MkStats { st_nonlinear : tally; st_linear : tally; st_matvec : tally; st_prec_calls : nat; st_phase : nat -> R }.
Definition no_stats : stats := MkStats zero_tally zero_tally zero_tally 0 (fun _ => 0).
Record process := MkProcess { wall : R; counted : stats }.

Definition pass (d : R) (p : process) : process := MkProcess (wall p + d) (counted p).
Definition with_stats (f : stats -> stats) (p : process) : process := MkProcess (wall p) (f (counted p)).

(** ** NavierStokesMatrix::vmult, navier_stokes_matrix.cc:221-262; [d] is the time its loops take *)
Definition matrix_vmult (d : R) (p : process) : process :=
  let time := wall p in
  let p := pass d p in
  with_stats (fun s => MkStats (st_nonlinear s) (st_linear s) (record_call (wall p - time) (st_matvec s)) (st_prec_calls s) (st_phase s)) p.

(** ** NavierStokesPreconditioner::vmult, navier_stokes_preconditioner.cc:593-737
    The durations of the parts and of the code between reading a timer and restarting it.  The inner solvers use velocity_vmult and the
    pressure matrices, which have no counter. *)
Record application := MkApply { a_velocity : R; a_divergence : R; a_mass : R; a_poisson : R; a_gap1 : R; a_gap2 : R; a_gap3 : R }.
Definition add_phase (i : nat) (elapsed : R) : process -> process :=
  with_stats (fun s => MkStats (st_nonlinear s) (st_linear s) (st_matvec s) (st_prec_calls s)
    (fun j => if Nat.eqb j i then st_phase s j + elapsed else st_phase s j)).

Record params := MkParams { is_projection : bool; is_stationary : bool; has_density : bool; (* parameters.density > 0 *)
                            output_memory : bool; output_verbosity : nat }.

Definition preconditioner_vmult (par : params) (a : application) (p : process) : process :=
  let p := with_stats (fun s => MkStats (st_nonlinear s) (st_linear s) (st_matvec s) (S (st_prec_calls s)) (st_phase s)) p in   (* line 600 *)
  let total := wall p in let time := wall p in                                                       (* line 601 *)
  let p := pass (a_velocity a) p in
  let p := add_phase 0 (wall p - time) p in                                                          (* line 667 *)
  let p := pass (a_gap1 a) p in let time := wall p in                                                (* line 670 *)
  let p := pass (a_divergence a) p in
  let p := add_phase 1 (wall p - time) p in                                                          (* line 673 *)
  let p := pass (a_gap2 a) p in let time := wall p in                                                (* line 676 *)
  if is_stationary par then
    let p := pass (a_poisson a) p in
    let p := add_phase 3 (wall p - time) p in                                                        (* line 691 *)
    let p := pass (a_gap3 a) p in let time := wall p in                                              (* line 692 *)
    let p := pass (a_mass a) p in
    let p := add_phase 2 (wall p - time) p in                                                        (* line 704 *)
    add_phase 4 (wall p - total) p                                                                   (* line 705 *)
  else
    let p := pass (a_mass a) p in
    let p := add_phase 2 (wall p - time) p in                                                        (* line 713 *)
    let p := if has_density par
             then let p := pass (a_gap3 a) p in let time := wall p in                                (* line 717 *)
                  let p := pass (a_poisson a) p in
                  add_phase 3 (wall p - time) p                                                      (* line 734 *)
             else p in
    add_phase 4 (wall p - total) p.                                                                  (* line 736 *)

(** what a linear solver of deal.II does: it multiplies with the matrix and with the preconditioner and does something else, in any order *)
Inductive work := Other (d : R) | Multiply (d : R) | Apply (a : application).
Definition do_work (par : params) (p : process) (w : work) : process :=
  match w with Other d => pass d p | Multiply d => matrix_vmult d p | Apply a => preconditioner_vmult par a p end.

(** ** NavierStokes::solve_system, navier_stokes.cc:559-653
    The projection scheme returns from solve_projection_system (navier_stokes_preconditioner.cc:777-850), which uses the assembled matrices
    and none of the two operators: only time passes. *)
Definition solve_system (par : params) (ws : list work) (p : process) : process :=
  if is_projection par then fold_left (fun p w => match w with Other d => pass d p | _ => p end) ws p
  else
    let time := wall p in                                                                            (* line 566 *)
    let p := fold_left (do_work par) ws p in
    with_stats (fun s => MkStats (st_nonlinear s) (record_call (wall p - time) (st_linear s)) (st_matvec s) (st_prec_calls s) (st_phase s)) p.  (* 646-647 *)

(** ** NavierStokes::solve_nonlinear_system, navier_stokes.cc:833-1159
    [iterations]: the time before each linear solve (residual, preconditioner setup) and the linear solve; [rest]: the time afterwards *)
Definition prints (par : params) (step_no : nat) : bool :=                                           (* lines 1081-1082 *)
  output_memory par && (Nat.eqb (step_no mod 10) 1 || Nat.eqb (output_verbosity par) 3).
Definition solve_nonlinear_system (par : params) (step_no : nat) (iterations : list (R * list work)) (rest : R) (p : process) : process * list stats :=
  let nl_timer := wall p in                                                                          (* line 837 *)
  let p := fold_left (fun p it => solve_system par (snd it) (pass (fst it) p)) iterations p in
  let p := pass rest p in
  let p := with_stats (fun s => MkStats (record_call (wall p - nl_timer) (st_nonlinear s)) (st_linear s) (st_matvec s) (st_prec_calls s) (st_phase s)) p in (* 1078-1079 *)
  if prints par step_no
  then (* lines 1102-1152: printed and set to zero: 1111, 1122, navier_stokes_matrix.cc:1199-1204, navier_stokes_preconditioner.cc:2756-2762 *)
    (with_stats (fun _ => no_stats) p, [counted p])
  else (p, []).

(** what a program does: nonlinear solves (time steps, initial field), anything else, and calls of the public functions solve_system and of
    the operators *)
Inductive item := Solve (step_no : nat) (iterations : list (R * list work)) (rest : R) | Pause (d : R) | Direct (w : work) | DirectSolve (ws : list work).
Definition do_item (par : params) (i : item) (p : process) : process * list stats :=
  match i with
  | Solve step_no iterations rest => solve_nonlinear_system par step_no iterations rest p
  | Pause d => (pass d p, [])
  | Direct w => (do_work par p w, [])
  | DirectSolve ws => (solve_system par ws p, [])
  end.
Fixpoint session (par : params) (l : list item) (p : process) : process * list stats :=
  match l with
  | [] => (p, [])
  | i :: l => let '(p, r) := do_item par i p in let '(p, r') := session par l p in (p, r ++ r')
  end.

(** ** The printed table, navier_stokes.cc:1099-1151
    Utilities::MPI::min_max_avg over the processes, and the time of one call: the average divided by the counter of the printing process;
    [None] is the division of a number by zero *)
Record line := MkLine { ln_min : R; ln_avg : R; ln_max : R; ln_per_call : option R }.
Definition mean (ts : list R) : R := fold_right Rplus 0 ts / INR (length ts).
Definition print_line (count : nat) (times : list R) : line :=
  MkLine (fold_right Rmin (hd 0 times) times) (mean times) (fold_right Rmax (hd 0 times) times)
         (if Nat.eqb count 0 then None else Some (mean times / INR count)).
(** the rows in the order of the output for the reports of all processes, the printing process first; "full prec" comes first of the five *)
Definition names : list string := ["velocity"; "div matrix"; "pres mass"; "pres Poiss"; "full prec"]%string.
Definition table (rs : list stats) : list (string * line) :=
  let own := hd no_stats rs in
  [("nln solver"%string, print_line (calls (st_nonlinear own)) (map (fun r => spent (st_nonlinear r)) rs));
   ("lin solver"%string, print_line (calls (st_linear own)) (map (fun r => spent (st_linear r)) rs));
   ("mat-vec"%string, print_line (calls (st_matvec own)) (map (fun r => spent (st_matvec r)) rs))]
  ++ map (fun i => let ind := ((4 + i) mod 5)%nat in
                   (nth ind names EmptyString, print_line (st_prec_calls own) (map (fun r => st_phase r ind) rs))) (seq 0 5).
