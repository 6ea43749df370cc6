(** * The three clocks of a two-phase level set run
    (source/navier_stokes.cc, source/two_phase_base.cc, source/level_set_base.cc,
    source/level_set_okz.cc, source/level_set_okz_advance_concentration.cc,
    source/level_set_okz_reinitialization.cc) *)
From Coq Require Import ZArith List Bool.
From Verif Require Import Num Model_TimeStepping.
Import ListNotations.

Section Clocks.
Context {N : Num}.

(** The Navier-Stokes clock (navier_stokes.cc:84, shared with the two-phase solver:
    two_phase_base.cc:92), the clock inside of the advection operator and the one inside of the
    reinitialization operator (level_set_okz.cc:94-105,166-177: constructed from the same parameters) *)
Record clocks := MkClocks { ck_ns : clock N; ck_adv : clock N; ck_reinit : clock N }.

(** level_set_okz_advance_concentration.cc:506-509 *)
Definition advance_concentration_clock (c : clock N) (dt : N) : clock N := next (set_desired_time_step c dt).
(** level_set_okz_reinitialization.cc:264 (start of the call) and 362 (end of the call) *)
Definition reinitialize_clock (c : clock N) (dt : N) : clock N := next (set_desired_time_step c dt).

(** Construction and setup_problem: two_phase_base.cc:134 restarts the Navier-Stokes clock,
    level_set_base.cc:152 calls reinitialize, which passes time_stepping.step_size()
    (level_set_okz.cc:554). *)
Definition setup_clocks (p : ts_params N) : clocks :=
  let ns := restart (ts_init_flow (tp_scheme p) (tp_start p) (tp_end p) (tp_step_start p) (tp_step_max p) (tp_step_min p)) in
  MkClocks ns (ts_init p) (reinitialize_clock (ts_init p) (step_size ns)).

(** The time step request between two time steps: compute_bubble_statistics calls
    set_desired_time_step on the Navier-Stokes clock (two_phase_base.cc:616,863,1049);
    [None]: fixed time step, no call. *)
Definition request_step (c : clock N) (d : option N) : clock N :=
  match d with Some v => set_desired_time_step c v | None => c end.

(** advance_time_step: init_time_advance calls next() of the Navier-Stokes clock
    (two_phase_base.cc:445, navier_stokes.cc:663), then advance_concentration and reinitialize with its
    step size (level_set_base.cc:253-254, level_set_okz.cc:554; advance_concentration:
    level_set_okz.cc:430-443) and reinitialize once more in case of smoothing (level_set_base.cc:273) *)
Definition two_phase_step (d : option N) (smoothing : bool) (k : clocks) : clocks :=
  let ns := next (request_step (ck_ns k) d) in
  let adv := advance_concentration_clock (ck_adv k) (step_size ns) in
  let re := reinitialize_clock (ck_reinit k) (step_size ns) in
  MkClocks ns adv (if smoothing then reinitialize_clock re (step_size ns) else re).

Fixpoint two_phase_loop (ds : nat -> option N) (sm : nat -> bool) (n : nat) (k : clocks) : clocks :=
  match n with O => k | S m => two_phase_step (ds m) (sm m) (two_phase_loop ds sm m k) end.
End Clocks.
Arguments clocks : clear implicits.
