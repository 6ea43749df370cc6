(** * A whole run of the phase field (Cahn-Hilliard) solver
    (source/two_phase_base.cc, source/phase_field.cc, source/phase_field_local.cc), composed from the flow clock of
    Model_TwoPhaseClocks.v (the phase field solver has no clock of its own) and the operators of Model_PhaseField.v.

    Simplifications: exact real arithmetic, the mesh is not adapted during the run, the velocity of each step is arbitrary data
    (the extrapolated velocity of the flow solver), the linear solver is an oracle. *)
From Coq Require Import ZArith Reals List Bool.
From Verif Require Import Num Model_TimeStepping Model_TwoPhaseClocks SumR Model_Bubble Model_LevelSetOps Model_PhaseField Model_LevelSetRun.
Import ListNotations.
Open Scope R_scope.

(** the block vectors solution, solution_old, solution_old_old of two_phase_base.h and the clock of the flow solver, which is the one
    the phase field solver reads (two_phase_base.cc:92) *)
Record pf_state := MkPfs { pfs_clock : clock RNum; pfs_cur : block2; pfs_old : block2; pfs_old_old : block2 }.
(** mesh and parameters: space, contact angle faces, Cahn-Hilliard parameters, ch_do_newton, tol_nl_iteration, max_nl_iteration *)
Record pf_problem := MkPfp { pp_space : lspace; pp_faces : list cface; pp_par : chpar; pp_newton : bool; pp_tol : R; pp_max : nat }.

(** phase_field_local.cc:462 l2_norm of the block vector *)
Definition b_norm (s : lspace) (U : block2) : R := sqrt (sumn (l_n s) (fun i => b_c U i * b_c U i) + sumn (l_n s) (fun i => b_w U i * b_w U i)).
(** two_phase_base.cc:447-455 on both blocks *)
Definition b_extrapolated (c : clock RNum) (cur old : block2) : block2 :=
  MkB2 (Model_LevelSetRun.extrapolated c (b_c cur) (b_c old)) (Model_LevelSetRun.extrapolated c (b_w cur) (b_w old)).

(** phase_field_local.cc:138-216 in the step with clock [c], old solutions [cur] and [old] (already shifted, two_phase_base.cc:457-459) *)
Definition pf_residual (P : pf_problem) (pts : list cpoint) (c : clock RNum) (cur old : block2) : block2 -> block2 * stored :=
  ch_residual (pp_space P) (pp_par P) (clock_weights c) pts (pp_faces P) (b_c cur) (b_c old).

(** One call of advance_time_step up to the force computation (phase_field.cc:463-470): init_time_advance (two_phase_base.cc:443-459)
    and advance_cahn_hilliard.  [None]: the branch without Newton throws.  [d] is the step size request since the last step,
    [pts] the quadrature points with the velocity of this step, [solver] the linear solver of this step. *)
Definition pf_time_step (P : pf_problem) (d : option R) (pts : list cpoint) (solver : nat -> stored -> block2 -> block2) (a : pf_state) : option pf_state :=
  let c := next (N:=RNum) (request_step (N:=RNum) (pfs_clock a) d) in
  match advance_cahn_hilliard (pf_residual P pts c (pfs_cur a) (pfs_old a)) (b_norm (pp_space P)) (b_distribute (pp_space P)) solver
          (pp_newton P) (pp_tol P) (pp_max P) (b_extrapolated c (pfs_cur a) (pfs_old a)) with
  | Some (U, _) => Some (MkPfs c U (pfs_cur a) (pfs_old a))
  | None => None
  end.

(** setup_problem (two_phase_base.cc:130-229): the clock is restarted; [initial] is the interpolated phase field with the initial
    potential, the old vectors hold anything *)
Definition pf_setup (p : ts_params RNum) (initial : block2) (a : pf_state) : Prop :=
  pfs_clock a = ck_ns (setup_clocks (N:=RNum) p) /\ pfs_cur a = initial.

(** the run: step m uses request ds m, velocity pts m and linear solver solver m; the user stops at the end of the interval *)
Inductive pf_run (P : pf_problem) (ds : nat -> option R) (pts : nat -> list cpoint) (solver : nat -> nat -> stored -> block2 -> block2)
    (a : pf_state) : nat -> pf_state -> Prop :=
| pr_start : pf_run P ds pts solver a 0 a
| pr_step n b c : pf_run P ds pts solver a n b -> at_end (pfs_clock b) = false ->
    pf_time_step P (ds n) (pts n) (solver n) b = Some c -> pf_run P ds pts solver a (S n) c.
