(** * Model of class [adaflo::TimeStepping]
    (include/adaflo/time_stepping.h, source/time_stepping.cc) *)
From Coq Require Import ZArith NArith QArith Bool List String.
From Verif Require Import Num.
Import ListNotations.

(** time_stepping.h:39-45 [TimeSteppingParameters::Scheme] *)
Inductive scheme := implicit_euler | explicit_euler | crank_nicolson | bdf_2.

Definition scheme_eqb (a b : scheme) : bool :=
  match a, b with
  | implicit_euler, implicit_euler | explicit_euler, explicit_euler
  | crank_nicolson, crank_nicolson | bdf_2, bdf_2 => true
  | _, _ => false
  end.

Section TS.
Context {N : Num}.

(** time_stepping.h:34-55 [TimeSteppingParameters], the fields read by the constructors
    (the CFL entries [time_stepping_cfl], [time_stepping_coef2] and [time_step_tolerance] are not
    read by class TimeStepping).  The same six fields exist in [FlowParameters] with the same
    names (parameters.h:131-140). *)
Record ts_params := MkTP {
  tp_scheme : scheme;
  tp_start : N; tp_end : N;
  tp_step_start : N; tp_step_max : N; tp_step_min : N }.

(** time_stepping.h:133-185, the private data members, in the same order.
    [step_no_val] is an [unsigned int]: increments wrap modulo 2^32. *)
Record clock := MkClock {
  start_val : N; final_val : N; scheme_val : scheme;
  start_step_val : N; max_step_val : N; min_step_val : N;
  current_step_val : N; last_step_val : N; step_val : N;
  weight_val : N; weight_old_val : N; weight_old_old_val : N;
  factor_extrapol_old : N; factor_extrapol_old_old : N;
  step_no_val : Z; at_end_val : bool; weight_changed : bool;
  now_val : N; prev_val : N; tau1_val : N; tau2_val : N }.

Local Notation lit z := (nlit (Qmake z 1)).

(** The if/else chains time_stepping.cc:45-61 and 85-101 *)
Definition tau1_of (s : scheme) : N :=
  if scheme_eqb s implicit_euler then lit 1
  else if scheme_eqb s explicit_euler then lit 0
  else if scheme_eqb s crank_nicolson then nlit (5#10)
  else lit 1.
Definition tau2_of (s : scheme) : N :=
  if scheme_eqb s implicit_euler then lit 0
  else if scheme_eqb s explicit_euler then lit 1
  else if scheme_eqb s crank_nicolson then nlit (5#10)
  else lit 0.

(** time_stepping.cc:64-102 [TimeStepping(const TimeSteppingParameters &)] *)
Definition ts_init (p : ts_params) : clock := {|
  start_val := tp_start p; final_val := tp_end p; scheme_val := tp_scheme p;
  start_step_val := tp_step_start p; max_step_val := tp_step_max p; min_step_val := tp_step_min p;
  current_step_val := tp_step_start p; last_step_val := lit 0; step_val := tp_step_start p;
  weight_val := ndiv (lit 1) (tp_step_start p);
  weight_old_val := nopp (lit 1); weight_old_old_val := lit 0;
  factor_extrapol_old := lit 0; factor_extrapol_old_old := lit 0;
  step_no_val := 0; at_end_val := false; weight_changed := true;
  now_val := tp_start p; prev_val := tp_start p;
  tau1_val := tau1_of (tp_scheme p); tau2_val := tau2_of (tp_scheme p) |}.

(** time_stepping.cc:24-62 [TimeStepping(const FlowParameters &)]: a textual copy; the arguments
    are the members of FlowParameters it reads. *)
Definition ts_init_flow (time_step_scheme : scheme) (start_time end_time : N)
    (time_step_size_start time_step_size_max time_step_size_min : N) : clock := {|
  start_val := start_time; final_val := end_time; scheme_val := time_step_scheme;
  start_step_val := time_step_size_start; max_step_val := time_step_size_max;
  min_step_val := time_step_size_min;
  current_step_val := time_step_size_start; last_step_val := lit 0;
  step_val := time_step_size_start;
  weight_val := ndiv (lit 1) time_step_size_start;
  weight_old_val := nopp (lit 1); weight_old_old_val := lit 0;
  factor_extrapol_old := lit 0; factor_extrapol_old_old := lit 0;
  step_no_val := 0; at_end_val := false; weight_changed := true;
  now_val := start_time; prev_val := start_time;
  tau1_val := tau1_of time_step_scheme; tau2_val := tau2_of time_step_scheme |}.

(** time_stepping.cc:104-119 [restart] *)
Definition restart (c : clock) : clock := {|
  start_val := start_val c; final_val := final_val c; scheme_val := scheme_val c;
  start_step_val := start_step_val c; max_step_val := max_step_val c;
  min_step_val := min_step_val c;
  current_step_val := start_step_val c; last_step_val := lit 0; step_val := start_step_val c;
  weight_val := weight_val c; weight_old_val := weight_old_val c;
  weight_old_old_val := weight_old_old_val c;
  factor_extrapol_old := factor_extrapol_old c;
  factor_extrapol_old_old := factor_extrapol_old_old c;
  step_no_val := 0;
  at_end_val := nltb (ndiv (nsub (final_val c) (start_val c)) (start_step_val c))
                     (nlit (1 # 100000000000000));
  weight_changed := true;
  now_val := start_val c; prev_val := prev_val c;
  tau1_val := tau1_val c; tau2_val := tau2_val c |}.

(** [now_val != start()], time_stepping.cc:131 and 160 *)
Definition not_at_start (c : clock) : bool := negb (neqb (now_val c) (start_val c)).

(** time_stepping.cc:127-139: the tentative step [s] *)
Definition next_s (c : clock) : N :=
  if not_at_start c then
    let s := if scheme_eqb (scheme_val c) bdf_2 && (step_no_val c =? 1)%Z
             then step_val c else current_step_val c in
    if ngtb s (max_step_val c) then max_step_val c else s
  else current_step_val c.

(** time_stepping.cc:133: [last_step_val] after the control block *)
Definition next_last (c : clock) : N :=
  if not_at_start c then current_step_val c else last_step_val c.

(** time_stepping.cc:142-151: the test whether this step runs into the final time *)
Definition next_hits_end (c : clock) : bool :=
  negb (at_end_val c) &&
  ngtb (nadd (now_val c) (next_s c))
       (nsub (final_val c) (nmul (nlit (1#100)) (next_s c))).

(** time_stepping.cc:143,153: [current_step_val] after the end control *)
Definition next_step (c : clock) : N :=
  if next_hits_end c then nsub (final_val c) (now_val c) else next_s c.

(** time_stepping.cc:142,154: the new time [h] *)
Definition next_time (c : clock) : N :=
  if next_hits_end c then final_val c else nadd (now_val c) (next_s c).

(** time_stepping.cc:160 *)
Definition next_uses_bdf (c : clock) : bool :=
  scheme_eqb (scheme_val c) bdf_2 && not_at_start c.

(** time_stepping.cc:159-173: [new_weight] *)
Definition next_new_weight (c : clock) : N :=
  let cur := next_step c in let last := next_last c in
  if next_uses_bdf c
  then ndiv (nadd (nmul (lit 2) cur) last) (nmul cur (nadd cur last))
  else ndiv (lit 1) cur.

(** time_stepping.cc:164-165,172 *)
Definition next_weight_old (c : clock) : N :=
  let cur := next_step c in let last := next_last c in
  if next_uses_bdf c
  then nopp (ndiv (nadd cur last) (nmul cur last))
  else ndiv (nopp (lit 1)) cur.

(** time_stepping.cc:166-167; in the other branch the member is not written *)
Definition next_weight_old_old (c : clock) : N :=
  let cur := next_step c in let last := next_last c in
  if next_uses_bdf c
  then ndiv cur (nmul last (nadd cur last))
  else weight_old_old_val c.

(** time_stepping.cc:174 *)
Definition next_weight_changes (c : clock) : bool :=
  ngtb (ndiv (nabs (nsub (next_new_weight c) (weight_val c))) (next_new_weight c))
       (nlit (1 # 1000000000000)).

(** time_stepping.cc:123-200 [next] (release mode: the Assert in line 126 is not evaluated) *)
Definition next (c : clock) : clock := {|
  start_val := start_val c; final_val := final_val c; scheme_val := scheme_val c;
  start_step_val := start_step_val c; max_step_val := max_step_val c;
  min_step_val := min_step_val c;
  current_step_val := next_step c; last_step_val := next_last c; step_val := step_val c;
  weight_val := if next_weight_changes c then next_new_weight c else weight_val c;
  weight_old_val := next_weight_old c;
  weight_old_old_val := next_weight_old_old c;
  factor_extrapol_old :=
    if (1 <? step_no_val c)%Z
    then ndiv (nadd (next_step c) (next_last c)) (next_last c) else lit 1;
  factor_extrapol_old_old :=
    if (1 <? step_no_val c)%Z
    then ndiv (nopp (next_step c)) (next_last c) else lit 0;
  step_no_val := (step_no_val c + 1) mod 4294967296;
  at_end_val := at_end_val c || next_hits_end c;
  weight_changed := next_weight_changes c;
  now_val := next_time c; prev_val := now_val c;
  tau1_val := tau1_val c; tau2_val := tau2_val c |}.

(** the value returned by [next], time_stepping.cc:199 *)
Definition next_result (c : clock) : N := now_val (next c).

Definition with_step (c : clock) (v : N) : clock := {|
  start_val := start_val c; final_val := final_val c; scheme_val := scheme_val c;
  start_step_val := start_step_val c; max_step_val := max_step_val c;
  min_step_val := min_step_val c;
  current_step_val := v; last_step_val := last_step_val c; step_val := v;
  weight_val := weight_val c; weight_old_val := weight_old_val c;
  weight_old_old_val := weight_old_old_val c;
  factor_extrapol_old := factor_extrapol_old c;
  factor_extrapol_old_old := factor_extrapol_old_old c;
  step_no_val := step_no_val c; at_end_val := at_end_val c; weight_changed := weight_changed c;
  now_val := now_val c; prev_val := prev_val c; tau1_val := tau1_val c; tau2_val := tau2_val c |}.

(** time_stepping.cc:242-247 [set_time_step] *)
Definition set_time_step (c : clock) (v : N) : clock := with_step c v.

(** time_stepping.cc:251-269 [set_desired_time_step] *)
Definition desired_step (c : clock) (d : N) : N :=
  let step_size_prev := if neqb (now_val c) (lit 0) then d else current_step_val c in
  let s := nmin (nmul (lit 2) step_size_prev) (nmax d (nmul (nlit (5#10)) step_size_prev)) in
  nmin (max_step_val c) (nmax (min_step_val c) s).
Definition set_desired_time_step (c : clock) (d : N) : clock := with_step c (desired_step c d).

(** time_stepping.h:297-308 [set_start_time], [set_final_time] *)
Definition set_start_time (c : clock) (t : N) : clock := {|
  start_val := t; final_val := final_val c; scheme_val := scheme_val c;
  start_step_val := start_step_val c; max_step_val := max_step_val c;
  min_step_val := min_step_val c;
  current_step_val := current_step_val c; last_step_val := last_step_val c;
  step_val := step_val c;
  weight_val := weight_val c; weight_old_val := weight_old_val c;
  weight_old_old_val := weight_old_old_val c;
  factor_extrapol_old := factor_extrapol_old c;
  factor_extrapol_old_old := factor_extrapol_old_old c;
  step_no_val := step_no_val c; at_end_val := at_end_val c; weight_changed := weight_changed c;
  now_val := now_val c; prev_val := prev_val c; tau1_val := tau1_val c; tau2_val := tau2_val c |}.
Definition set_final_time (c : clock) (t : N) : clock := {|
  start_val := start_val c; final_val := t; scheme_val := scheme_val c;
  start_step_val := start_step_val c; max_step_val := max_step_val c;
  min_step_val := min_step_val c;
  current_step_val := current_step_val c; last_step_val := last_step_val c;
  step_val := step_val c;
  weight_val := weight_val c; weight_old_val := weight_old_val c;
  weight_old_old_val := weight_old_old_val c;
  factor_extrapol_old := factor_extrapol_old c;
  factor_extrapol_old_old := factor_extrapol_old_old c;
  step_no_val := step_no_val c; at_end_val := at_end_val c; weight_changed := weight_changed c;
  now_val := now_val c; prev_val := prev_val c; tau1_val := tau1_val c; tau2_val := tau2_val c |}.

(** Getters, time_stepping.h:192-288,310-314 *)
Definition ts_start := start_val.
Definition ts_final := final_val.
Definition step_size := current_step_val.
Definition max_step_size := max_step_val.
Definition old_step_size := last_step_val.
Definition now := now_val.
Definition previous := prev_val.
Definition tau1 := tau1_val.
Definition tau2 := tau2_val.
Definition step_no := step_no_val.
Definition weight := weight_val.
Definition weight_old := weight_old_val.
Definition weight_old_old := weight_old_old_val.
Definition weight_has_changed := weight_changed.
Definition at_end := at_end_val.
Definition ts_scheme := scheme_val.

(** time_stepping.h:263-270 [max_weight_uniform] *)
Definition max_weight_uniform (c : clock) : N :=
  if scheme_eqb (scheme_val c) bdf_2
  then ndiv (nlit (15#10)) (current_step_val c) else ndiv (lit 1) (current_step_val c).

(** time_stepping.h:290-295 [extrapolate], for Number = double *)
Definition extrapolate (c : clock) (old old_old : N) : N :=
  nadd (nmul old (factor_extrapol_old c)) (nmul old_old (factor_extrapol_old_old c)).

(** time_stepping.cc:228-238 [at_tick]; [None] = undefined behaviour of the conversion to int *)
Definition at_tick (c : clock) (tick : N) : option bool :=
  let time := now c in
  match nint (ndiv (nmul time (nlit (10000000001 # 10000000000))) tick) with
  | None => None
  | Some position =>
      let slot := nmul (nlit (Qmake position 1)) tick in
      Some (if ngtb (nsub time slot) (nmul (step_size c) (nlit (95#100))) && negb (at_end c)
            then false else true)
  end.

(** time_stepping.cc:204-217 [name] *)
Definition scheme_name (s : scheme) : string :=
  if scheme_eqb s implicit_euler then "ImplEuler"%string
  else if scheme_eqb s explicit_euler then "ExplEuler"%string
  else if scheme_eqb s crank_nicolson then "CrankNicolson"%string
  else if scheme_eqb s bdf_2 then "BDF-2"%string else ""%string.
Definition name (c : clock) : string := scheme_name (scheme_val c).

(** The mutating calls a user can make, and histories of them. *)
Inductive op :=
| Next | SetTimeStep (v : N) | SetDesired (v : N)
| SetStart (t : N) | SetFinal (t : N) | Restart.

Definition apply_op (c : clock) (o : op) : clock :=
  match o with
  | Next => next c
  | SetTimeStep v => set_time_step c v
  | SetDesired v => set_desired_time_step c v
  | SetStart t => set_start_time c t
  | SetFinal t => set_final_time c t
  | Restart => restart c
  end.

Definition run (c : clock) (h : list op) : clock := fold_left apply_op h c.

(** [n] calls of next() in a row *)
Fixpoint next_n (n : nat) (c : clock) : clock :=
  match n with O => c | S m => next_n m (next c) end.

End TS.
Arguments ts_params : clear implicits.
Arguments clock : clear implicits.
Arguments op : clear implicits.
