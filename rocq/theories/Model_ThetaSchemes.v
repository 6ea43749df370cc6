(** * The time schemes of the flow solver
    The parameter file offers four schemes (source/parameters.cc:411-417, 600-607: implicit_euler, explicit_euler, crank_nicolson, bdf_2); the clock has two weights for
    the current and the old function (include/adaflo/time_stepping.h:180-183, source/time_stepping.cc:45-61).  The flow solver of Model_Run with
    the check at the beginning of local_operation, source/navier_stokes_matrix.cc:629 (evaluated in debug builds only).

    Simplifications: those of Model_Run.  The check is made by every evaluation of the operator; the first one in a time step is the
    residual at the beginning of solve_nonlinear_system (source/navier_stokes.cc:835-870). *)
From Coq Require Import Reals List Bool Arith ZArith.
From Verif Require Import Num SumR Model_Parameters Model_TimeStepping Model_NonlinearSolver Model_NSOperator Model_BoundaryValues Model_Run.
Import ListNotations.
Open Scope R_scope.

(** navier_stokes_matrix.cc:629: Assert(time_stepping->tau2() == 0., ExcNotImplemented()) *)
Definition operator_passes (debug : bool) (c : clock RNum) : bool := if debug then neqb (n:=RNum) (tau2 c) (nlit (QArith_base.Qmake 0 1)) else true.

Section Theta.
Context {point : Type}.
(** navier_stokes.cc:740-780 with the check; [None]: exception *)
Definition checked_time_step (debug : bool) (pb : problem point) (e : environment) (s : state) : option (state * (Z * Z)) :=
  if operator_passes debug (r_clock (init_time_advance pb s)) then Some (advance_time_step pb e s) else None.
(** [n] steps of the loop of the main programs *)
Fixpoint checked_steps (debug : bool) (pb : problem point) (env : nat -> environment) (n : nat) (s : state) : option state :=
  match n with
  | O => Some s
  | S n => match checked_steps debug pb env n s with
           | Some s1 => match checked_time_step debug pb (env n) s1 with Some r => Some (fst r) | None => None end
           | None => None end
  end.
End Theta.
