(** * Model of the body force of the two-phase solvers
    source/level_set_okz.cc:320-408 [LevelSetOKZSolver::local_compute_force] and
    source/phase_field_local.cc:49-130 [PhaseFieldSolver::local_compute_force].

    Simplifications: exact real arithmetic, no vectorization over cells, velocity rows without constraints
    (distribute_local_to_global adds to every row), one scalar shape function set for all velocity components. *)
From Coq Require Import Reals List Bool.
From Verif Require Import SumR Model_LevelSet.
Import ListNotations.
Open Scope R_scope.

(** parameters read by the two functions *)
Record force_parameters := MkForce {
  fp_dim : nat; fp_density : R; fp_density_diff : R; fp_viscosity : R; fp_viscosity_diff : R;
  fp_gravity : R; fp_surface_tension : R; fp_interpolate : bool }.
(** one cell: quadrature weights, velocity shape values and global numbers, level set shape values/gradients and the
    interpolation matrix to the pressure nodes, pressure shape gradients *)
Record force_cell := MkFCell {
  fc_nq : nat; fc_JxW : nat -> R;
  fc_nv : nat; fc_vshape : nat -> nat -> R; fc_vdof : nat -> nat;
  fc_nls : nat; fc_lshape : nat -> nat -> R; fc_lgrad : nat -> nat -> nat -> R;
  fc_np : nat; fc_pgrad : nat -> nat -> nat -> R; fc_interp : nat -> nat -> R;
  (** nodal values on this cell: indicator field (heaviside / phase field) and curvature (chemical potential) *)
  fc_ls : nat -> R; fc_curv : nat -> R }.
Definition Reqb (x y : R) : bool := if Req_EM_T x y then true else false.
(** level_set_okz.cc:338-339, phase_field_local.cc:64-65 *)
Definition use_variable_parameters (p : force_parameters) : bool :=
  negb (Reqb (fp_density_diff p) 0) || negb (Reqb (fp_viscosity_diff p) 0).
(** level_set_okz.cc:371-376, phase_field_local.cc:96-103: nodal values interpolated onto the pressure *)
Definition projected_value (c : force_cell) (i : nat) : R := sumn (fc_nls c) (fun j => fc_interp c i j * fc_ls c j).
(** pre_values.get_gradient, ls_values.get_gradient, curv_values.get_value *)
Definition pressure_gradient (c : force_cell) (P : nat -> R) (q d : nat) : R := sumn (fc_np c) (fun i => P i * fc_pgrad c q i d).
Definition ls_gradient (c : force_cell) (q d : nat) : R := sumn (fc_nls c) (fun j => fc_ls c j * fc_lgrad c q j d).
Definition curvature_value (c : force_cell) (q : nat) : R := fe_value (fc_nls c) (fc_curv c) (fc_lshape c q).
(** densities stored in the Navier-Stokes operator: level_set_okz.cc:352-364 *)
Definition okz_density (p : force_parameters) (c : force_cell) (q : nat) : R :=
  okz_property (fp_density p) (fp_density_diff p) (fc_nls c) (fc_ls c) (fc_lshape c q).
(** phase_field_local.cc:75-94 *)
Definition pf_density (p : force_parameters) (c : force_cell) (q : nat) : R :=
  phase_field_property (fp_density p) (fp_density_diff p) (fc_nls c) (fc_ls c) (fc_lshape c q).
Definition actual_rho (p : force_parameters) (stored : R) : R := if use_variable_parameters p then stored else fp_density p.
(** entries (density, viscosity) that the tables of the Navier-Stokes operator hold at point q after the loop, given the
    entries [old] before it: level_set_okz.cc:352-364, phase_field_local.cc:77-94 *)
Definition okz_table (p : force_parameters) (c : force_cell) (old : nat -> R * R) (q : nat) : R * R :=
  if use_variable_parameters p
  then (okz_density p c q, okz_property (fp_viscosity p) (fp_viscosity_diff p) (fc_nls c) (fc_ls c) (fc_lshape c q)) else old q.
Definition pf_table (p : force_parameters) (c : force_cell) (old : nat -> R * R) (q : nat) : R * R :=
  if use_variable_parameters p
  then (pf_density p c q, phase_field_property (fp_viscosity p) (fp_viscosity_diff p) (fc_nls c) (fc_ls c) (fc_lshape c q)) else old q.
(** level_set_okz.cc:388-404; component d of the force at point q *)
Definition okz_force (p : force_parameters) (c : force_cell) (q d : nat) : R :=
  (fp_surface_tension p * curvature_value c q) *
  (if fp_interpolate p then pressure_gradient c (projected_value c) q d else ls_gradient c q d)
  - (if Nat.eqb d (fp_dim p - 1) then fp_gravity p * actual_rho p (okz_density p c q) else 0).
(** phase_field_local.cc:110-125 *)
Definition pf_force (p : force_parameters) (c : force_cell) (q d : nat) : R :=
  curvature_value c q * pressure_gradient c (projected_value c) q d
  - (if Nat.eqb d (fp_dim p - 1) then fp_gravity p * actual_rho p (pf_density p c q) else 0).
(** submit_value, integrate, distribute_local_to_global: entry of global velocity node g, component d *)
Definition cell_rhs (force : force_cell -> nat -> nat -> R) (c : force_cell) (g d : nat) : R :=
  sumn (fc_nv c) (fun i => if Nat.eqb (fc_vdof c i) g then sumn (fc_nq c) (fun q => force c q d * fc_vshape c q i * fc_JxW c q) else 0).
Definition user_rhs (force : force_cell -> nat -> nat -> R) (cells : list force_cell) (g d : nat) : R :=
  suml cells (fun c => cell_rhs force c g d).
