(** * Mesh refinement and setup: what happens to the vectors
    source/navier_stokes.cc:189-224 (distribute_dofs), 230-360 (initialize_data_structures), 363-393 (setup_problem),
    397-497 (initialize_matrix_free), 659-718 (init_time_advance), 1373-1408 (prepare_coarsening_and_refinement),
    source/two_phase_base.cc:119-196 (setup_problem), 230-306 (initialize_data_structures), 396-437 (refine_grid),
    443-466 (init_time_advance).

    Simplifications: a vector is a function from global indices to reals; meshes are numbered by generation (0 = the mesh after the
    global refinements), a refinement leads from generation g to g+1.  deal.II's SolutionTransfer from g to g+1 is an input (a map of
    vectors for each DoFHandler), so is AffineConstraints::distribute for the hanging nodes of a generation and
    VectorTools::interpolate.  Ghost values are always up to date.  Everything else the objects hold (matrices, sparsity patterns)
    is left out except the two flags that control the setup and the preconditioner. *)
From Coq Require Import Reals QArith List Bool ZArith.
From Verif Require Import Num Model_TimeStepping Model_NonlinearSolver Model_Bubble.
Import ListNotations.
Open Scope R_scope.

Notation field := (nat -> R).
Definition zero : field := fun _ => 0.
(** the block vectors of both classes: navier_stokes.h:184-212, two_phase_base.h *)
Inductive vname := Sol | Old | OldOld | Upd | SysRhs | ConstRhs | UserRhs.
Definition vname_eqb (a b : vname) : bool :=
  match a, b with
  | Sol, Sol | Old, Old | OldOld, OldOld | Upd, Upd | SysRhs, SysRhs | ConstRhs, ConstRhs | UserRhs, UserRhs => true
  | _, _ => false
  end.
Notation vectors := (vname -> nat -> field).
Definition put (n : vname) (b : nat) (x : field) (v : vectors) : vectors :=
  fun n' b' => if vname_eqb n n' && Nat.eqb b b' then x else v n' b'.

(** deal.II and user data *)
Record env := MkEnv {
  transfer_u : nat -> field -> field; transfer_p : nat -> field -> field; transfer_l : nat -> field -> field; (* from generation g *)
  hanging_u : nat -> field -> field; hanging_p : nat -> field -> field; hanging_l : nat -> field -> field; (* distribute on generation g *)
  interpolated_u : nat -> field; interpolated_distance : nat -> field; (* initial functions interpolated on generation g *)
  transform_distance : nat -> field -> field; (* transform_distance_function with epsilon_used of generation g *)
  projection : bool (* parameters.linearization == projection *)
}.

Record state := MkState {
  generation : nat;
  ns : vectors; (* NavierStokes: block 0 velocity, block 1 pressure *)
  tp : vectors; (* TwoPhaseBaseAlgorithm: block 0 level set, block 1 curvature *)
  sol_trans_u : option (list field); sol_trans_p : option (list field); (* pending transfers, navier_stokes.h:268-272 *)
  system_is_setup : bool; update_preconditioner : bool
}.
Definition with_ns (v : vectors) (s : state) : state := MkState (generation s) v (tp s) (sol_trans_u s) (sol_trans_p s) (system_is_setup s) (update_preconditioner s).
Definition with_tp (v : vectors) (s : state) : state := MkState (generation s) (ns s) v (sol_trans_u s) (sol_trans_p s) (system_is_setup s) (update_preconditioner s).

(** write a list of fields into a list of targets, in order *)
Fixpoint put_all (l : list (vname * nat)) (x : list field) (v : vectors) : vectors :=
  match l, x with
  | (n, b) :: l, f :: x => put_all l x (put n b f v)
  | _, _ => v
  end.
Definition get_all (l : list (vname * nat)) (v : vectors) : list field := map (fun nb => v (fst nb) (snd nb)) l.
Definition apply_to (l : list (vname * nat)) (d : field -> field) (v : vectors) : vectors :=
  put_all l (map d (get_all l v)) v.

Section Code.
Variable e : env.

(** navier_stokes.cc:1373-1408; the lists old_grid_solutions in the order of the code *)
Definition velocity_targets : list (vname * nat) := [(Sol, 0%nat); (Old, 0%nat)].
Definition pressure_targets : list (vname * nat) := [(Sol, 1%nat); (Old, 1%nat)] ++ (if projection e then [(OldOld, 1%nat)] else []).
Definition prepare_coarsening_and_refinement (s : state) : state :=
  let g := generation s in
  let v := apply_to [(Sol, 0%nat); (Old, 0%nat)] (hanging_u e g) (ns s) in
  let v := apply_to [(Sol, 1%nat); (Old, 1%nat)] (hanging_p e g) v in
  let v := if projection e then apply_to [(OldOld, 1%nat)] (hanging_p e g) v else v in
  MkState g v (tp s) (Some (get_all velocity_targets v)) (Some (get_all pressure_targets v)) (system_is_setup s) (update_preconditioner s).
(** triangulation.execute_coarsening_and_refinement() *)
Definition execute_coarsening_and_refinement (s : state) : state :=
  MkState (S (generation s)) (ns s) (tp s) (sol_trans_u s) (sol_trans_p s) (system_is_setup s) (update_preconditioner s).
(** navier_stokes.cc:189-224 *)
Definition ns_distribute_dofs (s : state) : state :=
  MkState (generation s) (ns s) (tp s) (sol_trans_u s) (sol_trans_p s) false (update_preconditioner s).
(** navier_stokes.cc:230-360 *)
Definition ns_initialize_data_structures (s : state) : state :=
  if system_is_setup s then s
  else MkState (generation s) (ns s) (tp s) (sol_trans_u s) (sol_trans_p s) true true.
(** navier_stokes.cc:397-497: the vectors are new and zero (reinit), then the pending transfer is finished *)
Definition new_vectors : vectors := fun _ _ => zero.
Definition initialize_matrix_free (s : state) : state :=
  let g := generation s in
  match sol_trans_u s with
  | None => with_ns new_vectors s
  | Some xu =>
      let v := put_all velocity_targets (map (transfer_u e (g - 1)) xu) new_vectors in
      let v := apply_to [(Sol, 0%nat); (Old, 0%nat)] (hanging_u e g) v in
      let v := match sol_trans_p s with Some xp => put_all pressure_targets (map (transfer_p e (g - 1)) xp) v | None => v end in
      let v := apply_to [(Sol, 1%nat)] (hanging_p e g) v in
      let v := apply_to [(Old, 1%nat)] (hanging_p e g) v in
      let v := if projection e then apply_to [(OldOld, 1%nat)] (hanging_p e g) v else v in
      MkState g v (tp s) None None (system_is_setup s) (update_preconditioner s)
  end.

(** two_phase_base.cc:230-306: first the flow solver, then new zero vectors *)
Definition tp_initialize_data_structures (s : state) : state :=
  with_tp new_vectors (initialize_matrix_free (ns_initialize_data_structures s)).
(** two_phase_base.cc:405-409, 422-426: the order of the transferred vectors *)
Definition tp_targets : list (vname * nat) := [(Old, 0%nat); (Sol, 0%nat); (Old, 1%nat); (Sol, 1%nat)].
(** AffineConstraints::distribute on a vector of two blocks of the same size: the constrained indices are those of one DoFHandler, hence
    all in block 0 (two_phase_base.cc:430-431) *)
Definition distribute_block_vector (d : field -> field) (n : vname) (v : vectors) : vectors := put n 0%nat (d (v n 0%nat)) v.
(** two_phase_base.cc:396-437; [marked] is the result of mark_cells_for_refinement *)
Definition refine_grid (marked : bool) (s : state) : state :=
  if marked then
    let old_grid_solutions := get_all tp_targets (tp s) in
    let s := prepare_coarsening_and_refinement s in
    let s := execute_coarsening_and_refinement s in
    let s := ns_distribute_dofs s in
    let s := tp_initialize_data_structures s in
    let v := put_all tp_targets (map (transfer_l e (generation s - 1)) old_grid_solutions) (tp s) in
    let v := distribute_block_vector (hanging_l e (generation s)) Old v in
    let v := distribute_block_vector (hanging_l e (generation s)) Sol v in
    with_tp v s
  else s.

(** navier_stokes.cc:659-718 with the clock after next(); one block of the coupled schemes (lines 674-688) *)
Definition shift_block (c : clock RNum) (b : nat) (v : vectors) : vectors :=
  let guess : field := fun i => extrapolate c (v Sol b i) (v Old b i) in
  put Sol b guess (put Old b (v Sol b) (put OldOld b (v Old b) v)).
(** lines 694-716 *)
Definition shift_projection (c : clock RNum) (v : vectors) : vectors :=
  if (1 <? step_no c)%Z then
    let guess : field := fun i => pressure_guess c (v Sol 1%nat i) (v Old 1%nat i) (v OldOld 1%nat i) in
    put Sol 1%nat guess (put Upd 1%nat (v Sol 1%nat) (put OldOld 1%nat (v Old 1%nat) v))
  else if (step_no c =? 1)%Z then put Old 1%nat zero (put OldOld 1%nat zero v)
  else v.
Definition ns_init_time_advance (c : clock RNum) (s : state) : state :=
  let v := shift_block c 0%nat (ns s) in
  with_ns (if projection e then shift_projection c v else shift_block c 1%nat v) s.
(** two_phase_base.cc:443-466: both blocks *)
Definition shift_level_set (c : clock RNum) (b : nat) (v : vectors) : vectors :=
  let '(guess, old, old_old) := init_time_advance (step_size c) (old_step_size c) (v Sol b) (v Old b) in
  put Sol b guess (put Old b old (put OldOld b old_old v)).
Definition tp_init_time_advance (c : clock RNum) (s : state) : state :=
  let s := ns_init_time_advance c s in
  with_tp (shift_level_set c 1%nat (shift_level_set c 0%nat (tp s))) s.

(** ** Setup *)
(** two_phase_base.cc:152-156, 179-183: distance function, transformed in place *)
Definition initial_level_set (g : nat) : field := transform_distance e g (interpolated_distance e g).
(** two_phase_base.cc:163-188: one round of the mesh adaptation *)
Definition adaptation_round (marked : bool) (s : state) : state :=
  let s := refine_grid marked s in
  let s := with_ns (put Sol 0%nat (interpolated_u e (generation s)) (ns s)) s in
  with_tp (put Sol 0%nat (hanging_l e (generation s) (initial_level_set (generation s))) (tp s)) s.
(** [marks]: results of mark_cells_for_refinement; as many rounds as the list is long *)
Fixpoint adaptation (marks : list bool) (s : state) : state :=
  match marks with [] => s | m :: l => adaptation l (adaptation_round m s) end.
(** two_phase_base.cc:159-163 *)
Definition number_of_rounds (adaptive_refinements : nat) : nat :=
  if Nat.ltb 0 adaptive_refinements then S adaptive_refinements else 0%nat.
(** two_phase_base.cc:119-196; [stokes] = compute_initial_stokes_field, [velocity_is_zero] = the test l2_norm() == 0,
    [at_end] = time_stepping.at_end() after restart *)
Definition two_phase_setup (velocity_is_zero : field -> bool) (stokes : state -> state) (at_end : bool)
    (adaptive_refinements : nat) (mark : nat -> bool) (s0 : state) : state :=
  let s := tp_initialize_data_structures (ns_distribute_dofs s0) in
  let s := if at_end then s else with_ns (put Sol 0%nat (interpolated_u e (generation s)) (ns s)) s in
  let s := with_tp (put Sol 0%nat (initial_level_set (generation s)) (tp s)) s in
  let s := adaptation (map mark (seq 0 (number_of_rounds adaptive_refinements))) s in
  if velocity_is_zero (ns s Sol 0%nat) then stokes s else s.
(** navier_stokes.cc:363-393 *)
Definition ns_setup (at_end : bool) (s0 : state) : state :=
  let s := initialize_matrix_free (ns_initialize_data_structures (ns_distribute_dofs s0)) in
  if at_end then s else with_ns (put Sol 0%nat (hanging_u e (generation s) (interpolated_u e (generation s))) (ns s)) s.
End Code.

(** a freshly constructed object: no vectors yet, nothing pending *)
Definition constructed : state := MkState 0 new_vectors new_vectors None None false true.
