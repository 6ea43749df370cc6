(** * Prescribed fluid types on inflow boundaries in the level set solvers
    (source/level_set_okz.cc, source/level_set_okz_advance_concentration.cc,
    source/level_set_okz_matrix.cc, source/level_set_base.cc) *)
From stdpp Require Import gmap numbers list.
From Coq Require Import ZArith NArith Reals.
From Verif Require Import Num Model_Boundary Model_Bubble.
Local Open Scope R_scope.

(** The solver object: the registry shared by all classes and the copy of two of its members made by
    the constructor for the advection operator (level_set_okz.cc:161-164; stored by value,
    level_set_okz_advance_concentration.h:175) *)
Record ls_object := MkObj { ob_registry : registry; ob_adv_dirichlet : gmap bid func; ob_adv_symmetry : gset bid }.
(** level_set_okz.cc:58-197: the registry is created empty by the base class (flow_base_algorithm.cc:36)
    and copied in the same constructor *)
Definition construct : ls_object :=
  MkObj empty_registry (fluid_type empty_registry) (symmetry empty_registry).
(** calls of the registration functions on the object (they change the shared registry only) *)
Definition configure (dim : N) (h : list call) (s : ls_object) : ls_object :=
  MkObj (run dim h (ob_registry s)) (ob_adv_dirichlet s) (ob_adv_symmetry s).

(** value of a prescribed function (only the constants created by the registry occur) *)
Definition func_value (f : func) : R := match f with ConstFun v _ => IZR v | _ => 0 end.

Section Step.
(** the boundary id of the face a degree of freedom lies on, [None] in the interior (simplification: a
    dof on two boundaries counts for one of them) *)
Variable dof_boundary : nat -> option bid.

(** level_set_base.cc:165-171: homogeneous constraints on the boundaries with a fluid type *)
Definition constrained (s : ls_object) (i : nat) : bool :=
  match dof_boundary i with Some b => bool_decide (is_Some (fluid_type (ob_registry s) !! b)) | None => false end.
(** matrix-free solver: level_set_okz_advance_concentration.cc:528-545 *)
Definition imposed_matrix_free (s : ls_object) (i : nat) : option R :=
  match dof_boundary i with Some b => func_value <$> (ob_adv_dirichlet s !! b) | None => None end.
(** matrix-based solver: level_set_okz_matrix.cc:377-396 *)
Definition imposed_matrix (s : ls_object) (i : nat) : option R :=
  match dof_boundary i with Some b => func_value <$> (fluid_type (ob_registry s) !! b) | None => None end.

(** state of a run: level set, its old value and the last step size *)
Record ls_run := MkRun { rn_c : nat -> R; rn_old : nat -> R; rn_step : R }.
(** one time step: extrapolation (two_phase_base.cc:447-458), boundary values, then the increments of the
    advection (level_set_okz_advance_concentration.cc:649-650) and of the reinitialization steps
    (level_set_okz_reinitialization.cc:337,347), which constraints.distribute sets to zero on
    constrained dofs; [increment] is their sum before that *)
Definition ls_step (imposed : nat -> option R) (con : nat -> bool) (dt : R) (increment : nat -> R) (s : ls_run) : ls_run :=
  let '(guess, old, _) := init_time_advance dt (rn_step s) (rn_c s) (rn_old s) in
  let with_bc := fun i => match imposed i with Some v => v | None => guess i end in
  MkRun (fun i => with_bc i + (if con i then 0 else increment i)) old dt.
Fixpoint ls_steps (imposed : nat -> option R) (con : nat -> bool) (l : list (R * (nat -> R))) (s : ls_run) : ls_run :=
  match l with
  | [] => s
  | (dt, inc) :: t => ls_steps imposed con t (ls_step imposed con dt inc s)
  end.
End Step.
