(** * A whole run of the matrix-based level set solver
    (source/level_set_okz_matrix.cc, source/level_set_base.cc, source/two_phase_base.cc), composed from the clock of the flow solver
    (Model_TimeStepping.v, Model_TwoPhaseClocks.v) and the assembled systems of Model_MatrixLevelSet.v, including hanging nodes.

    Simplifications: exact real arithmetic, the mesh is not adapted during the run, no inflow boundaries (no boundary values of the
    level set), the velocities and the normals of each step are arbitrary data (they come from the flow solver and the normal
    projection), and the linear solvers are oracles: the relations hold for every exact solution of the linear systems.  The artificial
    viscosity of the branch without stabilization is zero (lines 477-489). *)
From Coq Require Import ZArith Reals List Bool.
From Verif Require Import Num Model_TimeStepping Model_TwoPhaseClocks SumR Model_BoundaryValues Model_MatrixLevelSet.
From Verif Require Model_LevelSetOps Model_LevelSetRun.
Import ListNotations.
Open Scope R_scope.

Notation weights := Model_LevelSetOps.weights.
Notation w_new := Model_LevelSetOps.w_new.
Notation w_old := Model_LevelSetOps.w_old.
Notation w_old_old := Model_LevelSetOps.w_old_old.
Notation w_use_old_old := Model_LevelSetOps.w_use_old_old.

(** a quadrature point with the velocity of the flow solver and the metric transpose(jac) * jac of inverse_jacobian(q), lines 456-459, 508-509 *)
Record vpoint := MkVP { v_pt : epoint; v_vel : nat -> R; v_metric : nat -> nat -> R }.
Record vcell := MkVC { v_cell : ecell; v_pts : list vpoint }.

(** level_set_okz_matrix.cc:495-498 *)
Definition cell_old_value (w : weights) (c : ecell) (p : epoint) (U_old U_old_old : nat -> R) : R :=
  - w_old w * e_value c p U_old - (if w_use_old_old w then w_old_old w * e_value c p U_old_old else 0).
(** lines 507-517 *)
Definition tau_stab (dim : nat) (w : weights) (v : vpoint) : R :=
  1 / sqrt (4 * w_new w * w_new w + sumn dim (fun d => v_vel v d * sumn dim (fun e => v_metric v d e * v_vel v e))).
(** lines 520-536 and 545-560: matrix entry at a point *)
Definition advance_entry (dim : nat) (stab : bool) (w : weights) (v : vpoint) (i j : nat) : R :=
  let p := v_pt v in let u_nabla_eta := edot dim (v_vel v) (e_grad p i) in
  if stab then
    (e_shape p i * w_new w * e_shape p j - u_nabla_eta * e_shape p j
     + u_nabla_eta * tau_stab dim w v * (edot dim (v_vel v) (e_grad p j) + e_shape p j * w_new w)) * e_JxW p
  else (e_shape p i * w_new w * e_shape p j - u_nabla_eta * e_shape p j) * e_JxW p.
(** lines 538-542 and 563-572: right hand side at a point *)
Definition advance_load (dim : nat) (stab : bool) (w : weights) (c : ecell) (v : vpoint) (U U_old U_old_old : nat -> R) (i : nat) : R :=
  let p := v_pt v in let u_nabla_eta := edot dim (v_vel v) (e_grad p i) in
  if stab then (e_shape p i + u_nabla_eta * tau_stab dim w v) * cell_old_value w c p U_old U_old_old * e_JxW p
  else (e_shape p i * (cell_old_value w c p U_old U_old_old - w_new w * e_value c p U) + u_nabla_eta * e_value c p U) * e_JxW p.
(** lines 445-583: all cells *)
Definition advance_systems (dim : nat) (stab : bool) (w : weights) (field : list vcell) (U U_old U_old_old : nat -> R) :=
  (map (fun x => (v_cell x, fun i j => suml (v_pts x) (fun v => advance_entry dim stab w v i j))) field,
   map (fun x => (v_cell x, fun i => suml (v_pts x) (fun v => advance_load dim stab w (v_cell x) v U U_old U_old_old i))) field).

(** dimension, number of unknowns, constraints, cells, epsilon_used, epsilon, convection_stabilization *)
Record mr_problem := MkMrp { mp_dim : nat; mp_n : nat; mp_con : lines; mp_cells : list ecell; mp_eps_used : R; mp_eps : R; mp_stab : bool }.
(** the clock of the flow solver (two_phase_base.cc:92: a reference to it) and block 0 of solution, solution_old, solution_old_old *)
Record mr_state := MkMrs { mr_clock : clock RNum; mr_cur : nat -> R; mr_old : nat -> R; mr_old_old : nat -> R }.

(** lines 931-1105: any number of steps of either kind (the loop is left when the update is small), with any normals; [step_size] is that
    of the flow clock *)
Inductive mr_reinit (P : mr_problem) (step_size : R) : (nat -> R) -> (nat -> R) -> Prop :=
| mri_done U : mr_reinit P step_size U U
| mri_step U diffuse_only normals diag sys x V :
    reinit_systems (mp_dim P) (mp_eps_used P) (dtau_m (mp_eps_used P) (mp_eps P) step_size) diffuse_only (mp_cells P) U normals = Some sys ->
    solves_system (mp_n P) (mp_con P) diag sys x ->
    mr_reinit P step_size (reinit_result (mp_con P) x U) V -> mr_reinit P step_size U V.

(** the field lives on the cells of the mesh *)
Definition fits (cells : list ecell) (field : list vcell) : Prop :=
  map v_cell field = cells /\ forall x, In x field -> map v_pt (v_pts x) = e_pts (v_cell x).

(** one call of advance_time_step, level_set_base.cc:190-195 and 245-275 (without the iteration of lines 199-236): init_time_advance
    shifts the vectors (two_phase_base.cc:443-459), then lines 371-610 (the increment is distributed and added, 606-609), reinitialize and
    in case of [smoothing] a second reinitialize *)
Definition mr_time_step (P : mr_problem) (d : option R) (smoothing : bool) (field : list vcell) (a b : mr_state) : Prop :=
  let c := next (request_step (N:=RNum) (mr_clock a) d) in
  let guess := Model_LevelSetRun.extrapolated c (mr_cur a) (mr_old a) in
  let w := Model_LevelSetRun.clock_weights c in
  fits (mp_cells P) field /\ mr_clock b = c /\ mr_old b = mr_cur a /\ mr_old_old b = mr_old a /\
  exists diag x first,
    solves_system (mp_n P) (mp_con P) diag (advance_systems (mp_dim P) (mp_stab P) w field guess (mr_cur a) (mr_old a)) x /\
    mr_reinit P (step_size c) (reinit_result (mp_con P) x guess) first /\
    (if smoothing then mr_reinit P (step_size c) first (mr_cur b) else mr_cur b = first).

(** setup_problem (two_phase_base.cc:130-229, level_set_base.cc:140-160) *)
Definition mr_setup (P : mr_problem) (p : ts_params RNum) (initial : nat -> R) (a : mr_state) : Prop :=
  mr_clock a = ck_ns (setup_clocks (N:=RNum) p) /\ mr_reinit P (step_size (mr_clock a)) initial (mr_cur a).

(** the run: step m uses request ds m and velocity field m *)
Inductive mr_run (P : mr_problem) (ds : nat -> option R) (sm : nat -> bool) (field : nat -> list vcell) (a : mr_state) : nat -> mr_state -> Prop :=
| mrr_start : mr_run P ds sm field a 0 a
| mrr_step n b c : mr_run P ds sm field a n b -> at_end (mr_clock b) = false ->
    mr_time_step P (ds n) (sm n) (field n) b c -> mr_run P ds sm field a (S n) c.
