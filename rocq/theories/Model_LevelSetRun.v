(** * A whole run of the matrix-free level set solver
    (source/two_phase_base.cc, source/level_set_base.cc, source/level_set_okz.cc, source/level_set_okz_advance_concentration.cc,
    source/level_set_okz_reinitialization.cc), composed from the clocks of Model_TwoPhaseClocks.v and the operators of
    Model_LevelSetOps.v.

    Simplifications: exact real arithmetic, the mesh is not adapted during the run (no C23 transfer), the velocity, the artificial
    viscosity and the normals of each step are arbitrary data (they come from the flow solver and the normal projection), and the
    linear solvers are oracles: the relation holds for every increment that solves the linear system exactly. *)
From Coq Require Import ZArith Reals List Bool.
From Verif Require Import Num Model_TimeStepping Model_TwoPhaseClocks SumR Model_Bubble Model_LevelSetOps.
Import ListNotations.
Open Scope R_scope.

(** the vectors solution, solution_old, solution_old_old of two_phase_base.h, block 0 *)
Record ls_state := MkLss { lss_clocks : clocks RNum; lss_cur : lvec; lss_old : lvec; lss_old_old : lvec }.

(** level_set_okz_advance_concentration.cc:374-395 (and 243: weight()): what the operator reads from its own clock *)
Definition clock_weights (c : clock RNum) : weights :=
  MkW (weight c) (weight_old c) (weight_old_old c) (scheme_eqb (ts_scheme c) bdf_2 && (1 <? step_no c)%Z).

(** two_phase_base.cc:447-455: extrapolation to the new time level, written into solution *)
Definition extrapolated (ns : clock RNum) (cur old : lvec) : lvec :=
  if Rltb 0 (old_step_size ns)
  then fun i => (step_size ns + old_step_size ns) / old_step_size ns * cur i + - step_size ns / old_step_size ns * old i
  else cur.

(** mesh and parameters that do not change: space, quadrature points, shortest edge, subdivisions, eps, element degree,
    convection_stabilization *)
Record ls_problem := MkLsp { lp_space : lspace; lp_points : list lpoint; lp_edge : R; lp_subdivisions : R; lp_eps : R; lp_degree : R;
                             lp_stab : bool }.

(** level_set_okz_reinitialization.cc:264, 62-67: the pseudo time step is computed with the step size of the reinitialization clock *)
Definition pseudo_step (P : ls_problem) (c : clock RNum) (dt : R) : R :=
  dtau_inv (l_dim (lp_space P)) (lp_edge P) (lp_subdivisions P) (step_size (set_desired_time_step (N:=RNum) c dt)).

(** level_set_okz_reinitialization.cc:258-363: any number of steps of either kind (the loop is left early when the update is small),
    with any normals *)
Inductive reinit_steps (P : ls_problem) (dti : R) : lvec -> lvec -> Prop :=
| rs_done U : reinit_steps P dti U U
| rs_step U inc diffuse_only n V :
    (forall i, (i < l_n (lp_space P))%nat ->
       reinit_vmult (lp_space P) (lp_points P) dti (lp_eps P) (lp_degree P) diffuse_only n inc i =
       reinit_rhs (lp_space P) (lp_points P) (lp_eps P) (lp_degree P) diffuse_only n U i) ->
    reinit_steps P dti (ladd U (ldistribute (lp_space P) inc)) V -> reinit_steps P dti U V.

(** One call of advance_time_step, level_set_base.cc:190-195 and 245-275 (without the iteration of lines 199-236):
    init_time_advance shifts the vectors (two_phase_base.cc:443-459); advance_concentration; reinitialize; a second reinitialize when
    the residual is excessive ([smoothing]).  [field] and [faces] are velocity and viscosity at the quadrature points of this step. *)
Definition ls_time_step (P : ls_problem) (d : option R) (smoothing : bool) (field : list apoint) (faces : list fpoint)
    (a b : ls_state) : Prop :=
  let k := two_phase_step (N:=RNum) d smoothing (lss_clocks a) in
  let dt := step_size (ck_ns k) in
  let guess := extrapolated (ck_ns k) (lss_cur a) (lss_old a) in
  let w := clock_weights (ck_adv k) in
  let s := lp_space P in
  map a_point field = lp_points P /\
  lss_clocks b = k /\ lss_old b = lss_cur a /\ lss_old_old b = lss_old a /\
  exists increment first,
    (forall i, (i < l_n s)%nat ->
       advance_vmult s (lp_stab P) (w_new w) field faces increment i =
       advance_rhs s (lp_stab P) w field faces guess (lss_cur a) (lss_old a) i) /\
    reinit_steps P (pseudo_step P (ck_reinit (lss_clocks a)) dt) (advance_result s guess increment) first /\
    (if smoothing then reinit_steps P (pseudo_step P (reinitialize_clock (N:=RNum) (ck_reinit (lss_clocks a)) dt) dt) first (lss_cur b)
     else lss_cur b = first).

(** setup_problem (two_phase_base.cc:130-229, level_set_base.cc:140-160): clocks, interpolated initial values, reinitialization *)
Definition ls_setup (P : ls_problem) (p : ts_params RNum) (initial : lvec) (a : ls_state) : Prop :=
  lss_clocks a = setup_clocks (N:=RNum) p /\
  reinit_steps P (pseudo_step P (ts_init (N:=RNum) p) (step_size (ck_ns (setup_clocks (N:=RNum) p)))) initial (lss_cur a).

(** the run: step m uses request ds m, velocity field m, ... *)
Inductive ls_run (P : ls_problem) (ds : nat -> option R) (sm : nat -> bool) (field : nat -> list apoint) (faces : nat -> list fpoint)
    (a : ls_state) : nat -> ls_state -> Prop :=
| lr_start : ls_run P ds sm field faces a 0 a
| lr_step n b c : ls_run P ds sm field faces a n b ->
    at_end (ck_ns (lss_clocks b)) = false ->
    ls_time_step P (ds n) (sm n) (field n) (faces n) b c -> ls_run P ds sm field faces a (S n) c.
