(** * Model of the reinitialization loops and of the order of operations in a level set time step
    (source/level_set_okz_reinitialization.cc, source/level_set_okz_matrix.cc,
    source/level_set_base.cc, source/two_phase_base.cc).
    The finite element operators inside of the loops are modelled in Model_LevelSetOps.v; here they
    are arbitrary functions, so that the theorems hold for every mesh, element and solver. *)
From Coq Require Import Reals Lra Lia List Bool Arith.
From Verif Require Import Num Model_Bubble.
Import ListNotations.
Local Open Scope nat_scope.

Section Reinit.
(** [V]: level set vectors, [NF]: nodal normal fields, [E]: normals stored in quadrature points *)
Context {V NF E : Type}.

(** The building blocks:
    - [ro_normals]: the projection of compute_normal (level_set_okz_compute_normal.cc:210-278,
      level_set_okz_matrix.cc:626-713); simplification: linear solves are exact, so the result is a
      function of the level set only;
    - [ro_evaluate]: evaluation and scaling in quadrature points
      (level_set_okz_reinitialization.cc:169-171; level_set_okz_matrix.cc:990-1000,1016-1019);
    - [ro_diffuse], [ro_compress]: the increment of a diffusive / compressive step (right-hand side
      and linear solve, level_set_okz_reinitialization.cc:295-337; level_set_okz_matrix.cc:942-1088);
    - [ro_add]: vector addition (line 347; 1097); [ro_norm]: l2 norm (line 351; 1101). *)
Record reinit_ops := MkRO {
  ro_normals : V -> NF; ro_evaluate : NF -> E;
  ro_diffuse : V -> V; ro_compress : E -> V -> V;
  ro_add : V -> V -> V; ro_norm : V -> R }.

(** What happens in the loop, in order *)
Inductive event := EvNormals | EvDiffuse | EvCompress.

(** level_set_okz_reinitialization.cc:352, level_set_okz_matrix.cc:1102: [update_norm < 1e-6] *)
Definition small (o : reinit_ops) (inc : V) : bool := Rltb (ro_norm o inc) (1/1000000).

(** ** Matrix-free variant: level_set_okz_reinitialization.cc:256-363.
    [mf_eval] is the member [evaluated_normal], which survives between calls. *)
Record mf_state := MkMF { mf_sol : V; mf_nodal : NF; mf_eval : E }.

(** level_set_okz_reinitialization.cc:281-284 *)
Definition actual_diff_steps (range : R * R) (diff_steps : nat) : nat :=
  if Rltb (fst range) (-(102/100)) || Rltb (102/100) (snd range) then diff_steps + 3 else diff_steps.

(** one pass through the loop body without the convergence test, lines 291-348; [compute_normal(true)]
    in the matrix-free solver always recomputes (level_set_okz_compute_normal.cc:210-278) *)
Definition mf_step (o : reinit_ops) (ad tau : nat) (st : mf_state) : mf_state * V * list event :=
  let first := Nat.eqb tau ad in
  let nodal := if first then ro_normals o (mf_sol st) else mf_nodal st in
  let evn := if first then [EvNormals] else [] in
  if Nat.ltb tau ad then
    let inc := ro_diffuse o (mf_sol st) in
    (MkMF (ro_add o (mf_sol st) inc) nodal (mf_eval st), inc, evn ++ [EvDiffuse])
  else
    let e := if first then ro_evaluate o nodal else mf_eval st in
    let inc := ro_compress o e (mf_sol st) in
    (MkMF (ro_add o (mf_sol st) inc) nodal e, inc, evn ++ [EvCompress]).

(** the loop, lines 289-357: [n] passes left, counter [tau] *)
Fixpoint mf_loop (o : reinit_ops) (ad n tau : nat) (st : mf_state) : mf_state * list event :=
  match n with
  | O => (st, [])
  | S n' =>
      let '(st', inc, ev) := mf_step o ad tau st in
      if small o inc then (st', ev)
      else let '(st'', ev') := mf_loop o ad n' (S tau) st' in (st'', ev ++ ev')
  end.

Definition mf_reinitialize (o : reinit_ops) (range : R * R) (stab_steps diff_steps : nat) (st : mf_state)
  : mf_state * list event :=
  let ad := actual_diff_steps range diff_steps in mf_loop o ad (ad + stab_steps) 0 st.

(** ** Matrix-based variant: level_set_okz_matrix.cc:909-1112; [ms_flag] is [normal_calculated] *)
Record ms_state := MkMS { ms_sol : V; ms_nodal : NF; ms_flag : bool }.

(** level_set_okz_matrix.cc:613-715 (with approximate_projections == false: the other case is
    rejected in line 622) *)
Definition ms_compute_normal (o : reinit_ops) (fast_computation : bool) (st : ms_state) : ms_state :=
  if fast_computation && ms_flag st then st
  else MkMS (ms_sol st) (ro_normals o (ms_sol st)) true.

(** loop lines 934-1108; [diffuse_only] is the local variable of line 929 *)
Fixpoint ms_loop (o : reinit_ops) (diff n tau : nat) (diffuse_only : bool) (st : ms_state)
  : ms_state * list event :=
  match n with
  | O => (st, [])
  | S n' =>
      let recompute := Nat.leb diff tau && Nat.eqb ((tau - diff) mod 8) 0 in
      let st1 := if recompute then ms_compute_normal o true st else st in
      let diffuse_only := if Nat.ltb tau diff then true else diffuse_only in
      let inc := if diffuse_only then ro_diffuse o (ms_sol st1)
                 else ro_compress o (ro_evaluate o (ms_nodal st1)) (ms_sol st1) in
      let ev := (if recompute && negb (ms_flag st) then [EvNormals] else [])
                ++ [if diffuse_only then EvDiffuse else EvCompress] in
      let sol := ro_add o (ms_sol st1) inc in
      if small o inc then (MkMS sol (ms_nodal st1) (ms_flag st1), ev)
      else let '(st'', ev') := ms_loop o diff n' (S tau) diffuse_only (MkMS sol (ms_nodal st1) false) in
           (st'', ev ++ ev')
  end.
Definition ms_reinitialize (o : reinit_ops) (stab_steps diff_steps : nat) (st : ms_state) : ms_state * list event :=
  ms_loop o diff_steps (diff_steps + stab_steps) 0 false st.

(** One time step of the matrix-based solver, level_set_base.cc:253-255: advance_concentration
    (does not touch [normal_calculated]: level_set_okz_matrix.cc:372-606), reinitialize, compute_force
    (line 99-100: compute_curvature calls compute_normal(false), line 725). Simplification: without the
    additional smoothing of level_set_base.cc:267-277. *)
Definition ms_time_step (o : reinit_ops) (stab_steps : nat) (advect : V -> V) (st : ms_state) : ms_state :=
  let st1 := MkMS (advect (ms_sol st)) (ms_nodal st) (ms_flag st) in
  let st2 := fst (ms_reinitialize o stab_steps 0 st1) in
  ms_compute_normal o false st2.

(** ** Time step and statistics of the matrix-free solver as seen by the reinitialization:
    [last_concentration_range] is written only by get_concentration_range (two_phase_base.cc:515-545),
    which the library calls only from compute_bubble_statistics and only if output_verbosity > 0
    (two_phase_base.cc:866,886 and 1052,1072); its initial value is (0,0) (two_phase_base.h:233). *)
Record tp_state := MkTPS { tps_ls : mf_state; tps_range : R * R }.
Definition tp_time_step (o : reinit_ops) (stab_steps : nat) (advect : V -> V) (st : tp_state) : tp_state :=
  let l := tps_ls st in
  MkTPS (fst (mf_reinitialize o (tps_range st) stab_steps 0 (MkMF (advect (mf_sol l)) (mf_nodal l) (mf_eval l))))
        (tps_range st).
Definition tp_statistics (range_of : V -> R * R) (output_verbosity : nat) (st : tp_state) : tp_state :=
  if Nat.ltb 0 output_verbosity then MkTPS (tps_ls st) (range_of (mf_sol (tps_ls st))) else st.
(** the user's loop: a time step followed by the statistics (tests/rising_bubble.cc:160-170) *)
Fixpoint tp_run (o : reinit_ops) (range_of : V -> R * R) (verbosity stab_steps : nat) (advect : V -> V) (n : nat)
    (st : tp_state) : tp_state :=
  match n with
  | O => st
  | S m => tp_statistics range_of verbosity (tp_time_step o stab_steps advect (tp_run o range_of verbosity stab_steps advect m st))
  end.
End Reinit.
Arguments reinit_ops : clear implicits.
Arguments mf_state : clear implicits.
Arguments ms_state : clear implicits.
Arguments tp_state : clear implicits.

(** ** The additional smoothing of a level set time step: level_set_base.cc:253-278.
    [res1] is the residual after the regular reinitialization, [res2] the one after the smoothing. *)
Record smooth_state := MkSM { sm_old_residual : R; sm_last_smoothing : nat; sm_last_refine : nat }.
Definition needs_smoothing (step_no : nat) (s : smooth_state) (actual_res : R) : bool :=
  Nat.ltb (3 + sm_last_smoothing s) step_no && Nat.ltb (2 + sm_last_refine s) step_no &&
  Rleb (2 * sm_old_residual s) actual_res.
Inductive tp_call := CAdvance | CReinit (stab diff : nat) | CForce | CResidual | CSolve.
Definition ls_time_step (n_reinit_steps step_no : nat) (res1 res2 : R) (s : smooth_state) : list tp_call * smooth_state :=
  let head := [CAdvance; CReinit n_reinit_steps 0; CForce; CResidual] in
  if needs_smoothing step_no s res1
  then (head ++ [CReinit n_reinit_steps 10; CForce; CResidual; CSolve], MkSM res2 step_no (sm_last_refine s))
  else (head ++ [CSolve], MkSM res1 (sm_last_smoothing s) (sm_last_refine s)).
