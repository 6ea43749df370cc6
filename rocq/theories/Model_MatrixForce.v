(** * Model of the body force of the matrix-based level set solver
    source/level_set_okz_matrix.cc:95-316 [LevelSetOKZMatrixSolver::compute_force].

    Simplifications: exact real arithmetic, one process, no vectorization over cells; compute_heaviside and compute_curvature (lines
    99-100) have run before, their results are the nodal values of the cells below; compute_density_on_faces (104) is not part of it.
    The constraints of the velocity are homogeneous lines. *)
From Coq Require Import Reals List Bool Arith.
From Verif Require Import SumR Model_BoundaryValues.
Import ListNotations.
Open Scope R_scope.

(** parameters read *)
Record mforce_parameters := MkMP {
  kp_dim : nat; kp_density : R; kp_density_diff : R; kp_viscosity : R; kp_viscosity_diff : R;
  kp_gravity : R; kp_tension : R; kp_interpolate : bool; kp_from_heaviside : bool }.
(** the clock: step_no(), tau1(), tau2() *)
Record mclock := MkMClock { k_step_no : nat; k_tau1 : R; k_tau2 : R }.
(** one cell; velocity shape functions are vectors (fe_values[velocities].value(i, q)); [kc_invJ q a b] is the derivative of reference
    coordinate a with respect to coordinate b (ls_values.inverse_jacobian(q)) *)
Record mforce_cell := MkMCell {
  kc_nq : nat; kc_JxW : nat -> R;
  kc_nv : nat; kc_vshape : nat -> nat -> nat -> R; kc_vdof : nat -> nat;
  kc_lshape : nat -> nat -> R; kc_lgrad : nat -> nat -> nat -> R; kc_invJ : nat -> nat -> nat -> R;
  (** nodal values: heaviside, solution.block(0), solution.block(1), solution_old.block(0), solution_old.block(1) *)
  kc_H : nat -> R; kc_phi : nat -> R; kc_w : nat -> R; kc_phi_old : nat -> R; kc_w_old : nat -> R }.
(** tables for the interpolation onto the pressure, lines 129-148: numbers of unknowns per cell, level set shape function j at pressure
    node i, and, on the first active cell, the Jacobian (derivative of coordinate a with respect to reference coordinate b) and the
    gradients of the pressure shape functions *)
Record interpolation := MkInterp {
  k_np : nat; k_nls : nat; k_shape : nat -> nat -> R; k_jac0 : nat -> nat -> nat -> R; k_pgrad0 : nat -> nat -> nat -> R }.

(** lines 129-130: Table<2, ...> gradients_c(fe->dofs_per_cell, n_q_points) is indexed with (pressure unknown, point); [None]: outside of
    the table (undefined behaviour, an error in debug mode) *)
Definition table_access (I : interpolation) (nq i q : nat) : option (nat * nat) :=
  if Nat.ltb i (k_nls I) && Nat.ltb q nq then Some (i, q) else None.
(** lines 145-146: transpose(jac) * shape_grad(i, q) *)
Definition gradients_c (dim : nat) (I : interpolation) (i q b : nat) : R := sumn dim (fun a => k_jac0 I q a b * k_pgrad0 I q i a).
(** lines 217-226, 243-259: c_val_on_p and the sum over the pressure unknowns *)
Definition value_on_p (I : interpolation) (u : nat -> R) (j : nat) : R := sumn (k_nls I) (fun i => u i * k_shape I j i).
Definition gradient_on_p (dim : nat) (I : interpolation) (u : nat -> R) (q b : nat) : R :=
  sumn (k_np I) (fun j => value_on_p I u j * gradients_c dim I j q b).
(** get_function_values, get_function_gradients *)
Definition mvalue (I : interpolation) (c : mforce_cell) (u : nat -> R) (q : nat) : R := sumn (k_nls I) (fun j => u j * kc_lshape c q j).
Definition mgradient (I : interpolation) (c : mforce_cell) (u : nat -> R) (q d : nat) : R := sumn (k_nls I) (fun j => u j * kc_lgrad c q j d).

Section Force.
Context (p : mforce_parameters) (t : mclock) (I : interpolation).
(** lines 165-166 *)
Definition tau1 : R := if Nat.ltb 1 (k_step_no t) then k_tau1 t else 1.
Definition tau2 : R := if Nat.ltb 1 (k_step_no t) then k_tau2 t else 0.
(** line 237 *)
Definition use_old : bool := (if Rlt_dec (1 / 100000000000000) (k_tau2 t) then true else false) && Nat.ltb 1 (k_step_no t).
(** lines 202-226: the field and its gradient (a gradient in reference coordinates when interpolating) *)
Definition c_field (c : mforce_cell) : nat -> R := if kp_from_heaviside p then kc_H c else kc_phi c.
Definition c_values (c : mforce_cell) (q : nat) : R := mvalue I c (c_field c) q.
Definition c_gradients (c : mforce_cell) (q d : nat) : R :=
  if kp_interpolate p then gradient_on_p (kp_dim p) I (c_field c) q d else mgradient I c (c_field c) q d.
(** lines 230, 237-263: the old gradient is always the one of the level set; the old curvature is read in the branch with
    interpolation only, otherwise the vector keeps its initial zeros (line 160) *)
Definition w_values (c : mforce_cell) (q : nat) : R := mvalue I c (kc_w c) q.
Definition c_gradients_old (c : mforce_cell) (q d : nat) : R :=
  if use_old then (if kp_interpolate p then gradient_on_p (kp_dim p) I (kc_phi_old c) q d else mgradient I c (kc_phi_old c) q d) else 0.
Definition w_values_old (c : mforce_cell) (q : nat) : R :=
  if use_old then (if kp_interpolate p then mvalue I c (kc_w_old c) q else 0) else 0.
(** lines 169-170, 268-290: the entries of the tables of the flow operator and actual_rho *)
Definition Rnz (x : R) : bool := if Req_EM_T x 0 then false else true.
Definition variable_parameters : bool := Rnz (kp_density_diff p) || Rnz (kp_viscosity_diff p).
Definition phase_value (c : mforce_cell) (q : nat) (base diff : R) : R :=
  if kp_from_heaviside p then base + diff * c_values c q else base + diff * (1 / 2) * (c_values c q + 1).
Definition m_table (c : mforce_cell) (old : nat -> R * R) (q : nat) : R * R :=
  if variable_parameters then (phase_value c q (kp_density p) (kp_density_diff p), phase_value c q (kp_viscosity p) (kp_viscosity_diff p))
  else old q.
Definition m_rho (c : mforce_cell) (q : nat) : R :=
  if variable_parameters then phase_value c q (kp_density p) (kp_density_diff p) else kp_density p.
(** lines 293-301 *)
Definition curvature (c : mforce_cell) (q : nat) : R := tau1 * w_values c q + tau2 * w_values_old c q.
Definition grad_c (c : mforce_cell) (q d : nat) : R :=
  (if kp_from_heaviside p then 1 else 1 / 2) * (tau1 * c_gradients c q d + tau2 * c_gradients_old c q d).
Definition capillary (c : mforce_cell) (q d : nat) : R :=
  let force d := grad_c c q d * curvature c q * kp_tension p in
  if kp_interpolate p then sumn (kp_dim p) (fun a => kc_invJ c q a d * force a) else force d.
(** line 304 *)
Definition m_force (c : mforce_cell) (q d : nat) : R :=
  capillary c q d - (if Nat.eqb d (kp_dim p - 1) then kp_gravity p * m_rho c q else 0).
(** lines 307-311 *)
Definition m_local_rhs (c : mforce_cell) (i : nat) : R :=
  sumn (kc_nq c) (fun q => sumn (kp_dim p) (fun d => m_force c q d * kc_vshape c q i d) * kc_JxW c q).
(** lines 106, 168, 316-318: user_rhs = 0, distribute_local_to_global *)
Definition m_user_rhs (con : lines) (cells : list mforce_cell) (before : nat -> R) (g : nat) : R :=
  0 + suml cells (fun c => sumn (kc_nv c) (fun a =>
        suml (expand con (kc_vdof c a)) (fun mw => if Nat.eqb (fst mw) g then snd mw * m_local_rhs c a else 0))).
End Force.
