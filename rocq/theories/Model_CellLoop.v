(** * The cell loops of the matrix-free Navier-Stokes operator: ranges of cell batches, running pointers and lanes
    source/navier_stokes_matrix.cc:601-917 [local_operation], 221-262 [vmult], 266-293 [residual], 337-382 [velocity_vmult],
    1098-1142 [local_pressure_convdiff], include/adaflo/navier_stokes_matrix.h:293-372 [begin_densities, begin_viscosities,
    begin_damping_coeff], 381-395 [begin_linearized_velocities], source/navier_stokes_preconditioner.cc:1720-2367
    [local_assemble_preconditioner].

    The coefficients and the linearization point live in flat arrays, one entry (with one component per lane of the vectorized data type)
    for every quadrature point of every cell batch. MatrixFree::cell_loop (and the work stream of the preconditioner) cuts the batches
    into ranges, which are worked on by any thread in any order. Inside a range the loops keep pointers which are set at the begin of the
    range and moved on after every batch.

    Simplifications: real arithmetic; the point operations are those of Model_NSOperator.v; what a batch adds to the result is added in
    one go (the contract of the colouring of the tasks by deal.II); no hanging nodes; release mode (the assertions of the access functions
    are not modelled). *)
From Coq Require Import Reals List Bool Arith.
From Verif Require Import SumR Model_Parameters Model_NSOperator.
Import ListNotations.
Open Scope R_scope.

(** the mesh as MatrixFree presents it: number of batches, of quadrature points and of filled lanes of a batch; what FEEvaluation knows
    about a point (the fields [rho], [mu] and [damping] of [cl_point] are not used); constant coefficients of the parameter file *)
Record mesh := MkMesh {
  cl_setting : setting; cl_batches : nat; cl_nq : nat; cl_active : nat -> nat;
  cl_point : nat -> nat -> nat -> qpoint;   (* batch, lane, point *)
  cl_density : R; cl_viscosity : R; cl_damping : R }.

(** variable_densities, variable_viscosities, variable_damping_coefficients *)
Record arrays := MkArrays { a_rho : list (nat -> R); a_mu : list (nat -> R); a_damping : list (nat -> R) }.
(** linearized, rho_values, mu_values, damping_values: offsets into the arrays *)
Record pointers := MkPtr { p_lin : nat; p_rho : nat; p_mu : nat; p_damping : nat }.
(** navier_stokes_matrix.cc:631-642 *)
Definition start (m : mesh) (first : nat) : pointers :=
  MkPtr (first * cl_nq m) (cl_nq m * first) (cl_nq m * first) (cl_nq m * first).
(** navier_stokes_matrix.cc:908-914 (there [has_lin] = true, also for an empty array) and navier_stokes_preconditioner.cc:2357-2364 *)
Definition advance (m : mesh) (has_lin variable : bool) (p : pointers) : pointers :=
  MkPtr (if has_lin then p_lin p + cl_nq m else p_lin p)
        (if variable then p_rho p + cl_nq m else p_rho p)
        (if variable then p_mu p + cl_nq m else p_mu p)
        (if variable then p_damping p + cl_nq m else p_damping p).

Definition has_entries {A} (l : list A) : bool := match l with [] => false | _ => true end.
(** [use_variable_coefficients], line 636 *)
Definition use_variable (a : arrays) : bool := has_entries (a_rho a).
Definition coefficient (variable : bool) (field : list (nat -> R)) (const : R) (ptr q v : nat) : R :=
  if variable then nth (ptr + q) field (fun _ => 0) v else const.
(** a point with the coefficients read through the pointers (lines 711-713, 831-844) *)
Definition with_coefficients (g : qpoint) (r k d : R) : qpoint :=
  MkPoint (JxW g) (phi g) (dphi g) (psi g) r k d (old_value g) (old_gradient g) (old_old_value g) (old_old_gradient g).
Definition point_at (m : mesh) (a : arrays) (p : pointers) (c v q : nat) : qpoint :=
  with_coefficients (cl_point m c v q)
    (coefficient (use_variable a) (a_rho a) (cl_density m) (p_rho p) q v)
    (coefficient (use_variable a) (a_mu a) (cl_viscosity m) (p_mu p) q v)
    (coefficient (use_variable a) (a_damping a) (cl_damping m) (p_damping p) q v).

(** NavierStokesOps *)
Inductive operation := op_residual | op_vmult | op_vmult_velocity.
(** linearized_velocities and the two blocks of the destination vector *)
Record lstate := MkL { l_lin : list (nat -> stored); l_u : vec; l_p : vec }.
Definition nothing : nat -> stored := fun _ => ((fun _ => 0), (fun _ _ => 0)).
(** *(ptr + i) = x *)
Fixpoint put {A} (l : list A) (i : nat) (x : A) : list A :=
  match l, i with [] , _ => [] | _ :: l, O => x :: l | y :: l, Datatypes.S i => y :: put l i x end.

(** lines 704-892 on one lane *)
Definition lane_out (s : setting) (op : operation) (x : qpoint) (l : stored) (U P : vec) : point_out * stored :=
  match op with
  | op_residual => residual_point s x (eval_value s x U) (eval_gradient s x U) (eval_pressure s x P) l
  | op_vmult => (vmult_point s x true l (eval_value s x U) (eval_gradient s x U) (eval_pressure s x P), l)
  | op_vmult_velocity => (vmult_point s x false l (eval_value s x U) (eval_gradient s x U) 0, l)
  end.
(** one quadrature point of a batch: the linearization point is written by the residual only (lines 776-798); the sums
    over the filled lanes are those of distribute_local_to_global, which drops constrained rows (lines 897-907) *)
Definition point_op (m : mesh) (op : operation) (a : arrays) (U P : vec) (c : nat) (p : pointers) (st : lstate) (q : nat) : lstate :=
  let s := cl_setting m in
  let entry := nth (p_lin p + q) (l_lin st) nothing in
  let out := fun v => lane_out s op (point_at m a p c v q) (entry v) U P in
  MkL (match op with op_residual => put (l_lin st) (p_lin p + q) (fun v => snd (out v)) | _ => l_lin st end)
      (fun i => l_u st i + (if constrained_u s i then 0
                            else sumn (cl_active m c) (fun v => test_velocity s (point_at m a p c v q) (fst (out v)) i)))
      (fun i => l_p st i + (match op with
                            | op_vmult_velocity => 0
                            | _ => if constrained_p s i then 0
                                   else sumn (cl_active m c) (fun v => test_pressure s (point_at m a p c v q) (fst (out v)) i)
                            end)).
(** body of the loop over the batches, lines 655-907 *)
Definition batch_op (m : mesh) (op : operation) (a : arrays) (U P : vec) (st : lstate) (t : nat * pointers) : lstate :=
  fold_left (point_op m op a U P (fst t) (snd t)) (seq 0 (cl_nq m)) st.
(** lines 655-916: the loop over [n] batches of a range *)
Fixpoint range_loop (m : mesh) (op : operation) (a : arrays) (U P : vec) (n cell : nat) (p : pointers) (st : lstate) : lstate :=
  match n with
  | O => st
  | Datatypes.S n => range_loop m op a U P n (Datatypes.S cell) (advance m true (use_variable a) p) (batch_op m op a U P st (cell, p))
  end.
Definition local_operation (m : mesh) (op : operation) (a : arrays) (U P : vec) (st : lstate) (r : nat * nat) : lstate :=
  range_loop m op a U P (snd r - fst r) (fst r) (start m (fst r)) st.
(** MatrixFree::cell_loop: the ranges in the order in which they are worked on *)
Definition cell_loop (m : mesh) (op : operation) (a : arrays) (U P : vec) (ranges : list (nat * nat)) (st : lstate) : lstate :=
  fold_left (local_operation m op a U P) ranges st.

(** the same ranges by several threads: the batches of a range with the pointers they are worked on with, and an arbitrary schedule of
    the batches of all ranges *)
Fixpoint range_tasks (m : mesh) (a : arrays) (n cell : nat) (p : pointers) : list (nat * pointers) :=
  match n with
  | O => []
  | Datatypes.S n => (cell, p) :: range_tasks m a n (Datatypes.S cell) (advance m true (use_variable a) p)
  end.
Definition tasks (m : mesh) (a : arrays) (r : nat * nat) : list (nat * pointers) := range_tasks m a (snd r - fst r) (fst r) (start m (fst r)).
Definition scheduled_loop (m : mesh) (op : operation) (a : arrays) (U P : vec) (schedule : list (nat * pointers)) (st : lstate) : lstate :=
  fold_left (batch_op m op a U P) schedule st.

Definition zero : vec := fun _ => 0.
(** lines 221-262 [vmult]; [schedule]: how the loop was executed *)
Definition loop_vmult (m : mesh) (a : arrays) (m0 m1 : option mode) (schedule : list (nat * pointers)) (lin : list (nat -> stored))
    (U P : vec) : (vec * vec) * list (nat -> stored) :=
  let s := cl_setting m in
  let st := scheduled_loop m op_vmult a (masked (constrained_u s) U) (masked (constrained_p s) P) schedule (MkL lin zero zero) in
  (((fun i => if constrained_u s i then U i else l_u st i),
    average_projection s m0 m1 (fun i => if constrained_p s i then - P i else l_p st i)), l_lin st).
(** lines 337-382 [velocity_vmult] *)
Definition loop_velocity_vmult (m : mesh) (a : arrays) (schedule : list (nat * pointers)) (lin : list (nat -> stored)) (U : vec)
    : vec * list (nat -> stored) :=
  let s := cl_setting m in
  let st := scheduled_loop m op_vmult_velocity a (masked (constrained_u s) U) zero schedule (MkL lin zero zero) in
  ((fun i => if constrained_u s i then U i else l_u st i), l_lin st).
(** navier_stokes.cc:782-786 with lines 266-293 [residual] *)
Definition loop_residual (m : mesh) (a : arrays) (m0 m1 : option mode) (schedule : list (nat * pointers)) (lin : list (nat -> stored))
    (const_u const_p user_u user_p U P : vec) : (vec * vec) * list (nat -> stored) :=
  let s := cl_setting m in
  let st := scheduled_loop m op_residual a U P schedule (MkL lin const_u const_p) in
  (((fun i => - l_u st i + user_u i), average_projection s m0 m1 (fun i => - l_p st i + user_p i)), l_lin st).

(** ** navier_stokes_preconditioner.cc:1720-2367: the matrices of the preconditioner; [local]: what the assembly of one cell (batch, lane)
    adds to an entry of the matrix, given the linearization point and the coefficients at the points of the cell (1738-1748, 1807-1827,
    1955-1985); the pointers move on by 2357-2364 (the linearization pointer only if there is one) *)
Definition cell_matrix := nat -> nat -> (nat -> stored) -> (nat -> R) -> (nat -> R) -> (nat -> R) -> nat -> nat -> R.
(** use_variable_parameters, line 1738 with navier_stokes_matrix.h:374-379 *)
Definition matrix_variable (a : arrays) : bool := has_entries (a_mu a).
Definition assemble_batch (m : mesh) (a : arrays) (lin : list (nat -> stored)) (loc : cell_matrix) (mat : nat -> nat -> R)
    (c : nat) (p : pointers) : nat -> nat -> R :=
  fun i j => mat i j + sumn (cl_active m c) (fun v =>
    loc c v (fun q => nth (p_lin p + q) lin nothing v)
        (fun q => coefficient (matrix_variable a) (a_rho a) (cl_density m) (p_rho p) q v) (fun q => coefficient (matrix_variable a) (a_mu a) (cl_viscosity m) (p_mu p) q v)
        (fun q => coefficient (matrix_variable a) (a_damping a) (cl_damping m) (p_damping p) q v) i j).
Fixpoint assemble_range (m : mesh) (a : arrays) (lin : list (nat -> stored)) (loc : cell_matrix) (n cell : nat) (p : pointers)
    (mat : nat -> nat -> R) : nat -> nat -> R :=
  match n with
  | O => mat
  | Datatypes.S n => assemble_range m a lin loc n (Datatypes.S cell) (advance m (has_entries lin) (matrix_variable a) p)
                       (assemble_batch m a lin loc mat cell p)
  end.
Definition assemble (m : mesh) (a : arrays) (lin : list (nat -> stored)) (loc : cell_matrix) (ranges : list (nat * nat)) : nat -> nat -> R :=
  fold_left (fun mat r => assemble_range m a lin loc (snd r - fst r) (fst r) (start m (fst r)) mat) ranges (fun _ _ => 0).
