(** * Time steps that end with an exception
    source/level_set_base.cc:190-291 (advance_time_step of the level set solvers), source/two_phase_base.cc:443-466 (init_time_advance),
    source/level_set_okz_advance_concentration.cc:505-652, source/level_set_okz_reinitialization.cc:256-363,
    source/navier_stokes.cc:561-566, 659-780, 838-886 (time step of the flow),
    source/navier_stokes_preconditioner.cc:779-850 (solve_projection_system).

    Simplifications: exact real arithmetic, one process, ghost values up to date.  The computations inside of a step are inputs: what they write,
    and whether they end with an exception (SolverControl::NoConvergence of a linear solver that is not caught, an error of Trilinos).  Only the
    vectors of the time history and the clocks are kept; normals, Heaviside function and force have no history. *)
From Coq Require Import Reals List Bool ZArith.
From Verif Require Import Num SumR Model_TimeStepping Model_NonlinearSolver Model_Bubble Model_Transfer Model_TwoPhaseClocks Model_BoundaryValues Model_Projection.
Import ListNotations.
Open Scope R_scope.

(** the two-phase solver with its flow solver: block 0 / 1 of the flow: velocity / pressure, of the two-phase solver: level set / curvature *)
Record objects := MkObjects { o_clocks : clocks RNum; o_ns : vectors; o_tp : vectors }.
(** a computation that changes a vector in place: it comes to its end, or an exception leaves it with the vector changed so far *)
Inductive written := Complete (x : field) | Interrupted (x : field).
Definition content (w : written) : field := match w with Complete x | Interrupted x => x end.
Definition complete (w : written) : bool := match w with Complete _ => true | Interrupted _ => false end.
(** what advance_time_step does in the end *)
Inductive ending := Returned (iterations : Z * Z) | Threw.

(** the data of one call *)
Record step_data := MkData {
  d_request : option R;                    (* step size requested before the call *)
  d_boundary_u : field -> field;           (* apply_boundary_conditions, navier_stokes.cc:725-735 *)
  d_boundary_ls : field -> field;          (* boundary values of the level set, advance_concentration.cc:531-549 *)
  d_advect : field -> option field;        (* increment of the advection, lines 621-644; None: also GMRES does not converge *)
  d_reinit : field -> written;             (* reinitialization.cc:287-357, CG is not guarded *)
  d_curvature : field -> field -> written; (* compute_force: curvature from the level set, starting from the predicted curvature *)
  d_smoothing : bool;                      (* level_set_base.cc:266-268 *)
  d_smooth : field -> written;             (* the second reinitialization with diffusion, line 273 *)
  d_flow : field -> field -> (field * field) * ending (* solve_nonlinear_system started with velocity and pressure: what it leaves, how it ends;
                                              a failed nonlinear iteration is caught, line 286, and returns (0,0) *)
}.

Definition set_clocks (k : clocks RNum) (s : objects) : objects := MkObjects k (o_ns s) (o_tp s).
Definition set_ns (v : vectors) (s : objects) : objects := MkObjects (o_clocks s) v (o_tp s).
Definition set_tp (v : vectors) (s : objects) : objects := MkObjects (o_clocks s) (o_ns s) v.

(** two_phase_base.cc:443-466 with navier_stokes.cc:659-688, 725-735 for the coupled schemes: the clock first, then all vectors *)
Definition begin_step (d : step_data) (s : objects) : objects :=
  let k := o_clocks s in
  let c := next (request_step (ck_ns k) (d_request d)) in
  let v := shift_block c 1%nat (shift_block c 0%nat (o_ns s)) in
  MkObjects (MkClocks c (ck_adv k) (ck_reinit k)) (put Sol 0%nat (d_boundary_u d (v Sol 0%nat)) v)
    (shift_level_set c 1%nat (shift_level_set c 0%nat (o_tp s))).

(** advance_concentration.cc:505-652: clock, boundary values, increment; [true]: no exception *)
Definition advection (d : step_data) (s : objects) : objects * bool :=
  let k := o_clocks s in
  let s := set_clocks (MkClocks (ck_ns k) (advance_concentration_clock (ck_adv k) (step_size (ck_ns k))) (ck_reinit k)) s in
  let start := d_boundary_ls d (o_tp s Sol 0%nat) in
  let s := set_tp (put Sol 0%nat start (o_tp s)) s in
  match d_advect d start with
  | None => (s, false)
  | Some inc => (set_tp (put Sol 0%nat (add start inc) (o_tp s)) s, true)
  end.

(** reinitialization.cc:256-363: the step size of its clock is set first (264), the clock is advanced last (362) *)
Definition reinitialization (f : field -> written) (s : objects) : objects * bool :=
  let k := o_clocks s in
  let w := f (o_tp s Sol 0%nat) in
  let wish := set_desired_time_step (ck_reinit k) (step_size (ck_ns k)) in
  (MkObjects (MkClocks (ck_ns k) (ck_adv k) (if complete w then next wish else wish)) (o_ns s) (put Sol 0%nat (content w) (o_tp s)), complete w).

(** compute_force, as far as the history is concerned: level_set_okz.cc:413-420 *)
Definition force (d : step_data) (s : objects) : objects * bool :=
  let w := d_curvature d (o_tp s Sol 0%nat) (o_tp s Sol 1%nat) in
  (set_tp (put Sol 1%nat (content w) (o_tp s)) s, complete w).

(** the next part is reached only without an exception *)
Definition andthen (p : objects * bool) (f : objects -> objects * bool) : objects * bool := if snd p then f (fst p) else p.

(** level_set_base.cc:253-275 *)
Definition interface_part (d : step_data) (s : objects) : objects * bool :=
  andthen (andthen (andthen (advection d s) (reinitialization (d_reinit d))) (force d))
    (fun s => if d_smoothing d then andthen (reinitialization (d_smooth d) s) (force d) else (s, true)).

(** level_set_base.cc:190-291; [do_iteration]: the parameter "full nonlinear iteration" *)
Definition advance_time_step (do_iteration : bool) (d : step_data) (s : objects) : objects * ending :=
  let s := begin_step d s in
  if do_iteration then (s, Threw) (* line 201 *)
  else match interface_part d s with
       | (s, false) => (s, Threw)
       | (s, true) =>
           let '((u, p), e) := d_flow d (o_ns s Sol 0%nat) (o_ns s Sol 1%nat) in
           (set_ns (put Sol 1%nat p (put Sol 0%nat u (o_ns s))) s, e)
       end.
(** a user who catches every exception and goes on, as long as the clock is not at its end: the calls of a run *)
Definition calls (do_iteration : bool) (ds : list step_data) (s : objects) : objects :=
  fold_left (fun s d => fst (advance_time_step do_iteration d s)) ds s.

(** ** The flow alone, projection scheme *)
(** the three linear solvers of navier_stokes_preconditioner.cc:779-850; none of them is guarded *)
Record proj_data := MkProjData { p_velocity : written; p_poisson : written; p_mass : written; p_bc : field -> field; p_finish : field -> field }.
(** lines 788-808 (solution_update = 0 zeroes both blocks), 820-825, 830-846; then navier_stokes.cc:885-886 and the pressure corrections *)
Definition projection_part (con_u con_schur : lines) (d : proj_data) (v : vectors) : vectors * bool :=
  let v := put Sol 1%nat (v Upd 1%nat) (put Upd 1%nat (v Sol 1%nat) v) in (* navier_stokes.cc:842-843 *)
  let v := put Upd 1%nat zero (put Upd 0%nat (content (p_velocity d)) v) in
  if negb (complete (p_velocity d)) then (v, false) else
  let v := put Upd 0%nat (distribute con_u (content (p_velocity d))) v in
  let v := put Old 1%nat (content (p_poisson d)) v in
  if negb (complete (p_poisson d)) then (v, false) else
  let phi := distribute con_schur (content (p_poisson d)) in
  let v := put Old 1%nat phi v in
  let v := put Upd 1%nat (content (p_mass d)) v in
  if negb (complete (p_mass d)) then (v, false) else
  let v := put Upd 1%nat (add (distribute con_schur (content (p_mass d))) phi) v in
  let v := put Sol 1%nat (add (v Sol 1%nat) (v Upd 1%nat)) (put Sol 0%nat (add (v Sol 0%nat) (v Upd 0%nat)) v) in
  (put Sol 1%nat (p_finish d (v Sol 1%nat)) v, true).
(** navier_stokes.cc:751-780: one call of advance_time_step of the flow solver; the exception of a linear solver is not the one that is caught *)
Definition projection_call (con_u con_schur : lines) (d : proj_data) (cv : clock RNum * vectors) : (clock RNum * vectors) * bool :=
  let c := next (fst cv) in
  let v := shift_projection c (shift_block c 0%nat (snd cv)) in
  let v := put Sol 0%nat (p_bc d (v Sol 0%nat)) v in
  let '(v, ok) := projection_part con_u con_schur d v in
  ((c, v), ok).
