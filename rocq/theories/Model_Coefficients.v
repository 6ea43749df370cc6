(** * Material coefficients: from the parameters to the quadrature points of the momentum equation
    source/navier_stokes_matrix.cc (initialize, local_operation), source/navier_stokes.cc (compute_initial_stokes_field),
    source/level_set_okz.cc and source/phase_field_local.cc (local_compute_force), source/level_set_okz_matrix.cc (compute_force),
    include/adaflo/sharp_interface.h (update_phases).

    Simplifications: one entry of a field per quadrature point (no vectorization); real numbers; release mode; the cell loops of the
    solvers are represented by what they do with the fields (Model_MatrixState). *)
From Coq Require Import Reals List Bool Arith.
From Verif Require Import Num Model_Parameters Model_MatrixState.
Import ListNotations.
Open Scope R_scope.

(** navier_stokes_matrix.cc:97-98 (same condition in level_set_okz.cc:337-338, phase_field_local.cc) *)
Definition variable_material (fp : flow_params RNum) : bool := negb (Reqb (fp_density_diff fp) 0) || negb (Reqb (fp_viscosity_diff fp) 0).
(** navier_stokes.cc:197 clear, 452 initialize with navier_stokes_matrix.cc:100-108 *)
Definition setup (fp : flow_params RNum) (n : nat) (explicit : bool) (m : matrix R) : matrix R :=
  initialize n (variable_material fp) explicit 0 (fp_density fp) (fp_viscosity fp) 0 (clear m).
(** navier_stokes.cc:1178-1197: for every point of every cell; use_variable_coefficients() is variable_densities.size() > 0
    (navier_stokes_matrix.h:373-378) *)
Definition stokes_coefficients (fp : flow_params RNum) (m : matrix R) : matrix R :=
  if nonempty (densities (cur m))
  then set_coefficients (map (fun _ => 0) (densities (cur m))) (map (fun _ => fp_viscosity fp) (viscosities (cur m))) (map (fun _ => 0) (dampings (cur m))) m
  else m.
(** level_set_okz.cc:351-365, level_set_okz_matrix.cc:172-, phase_field_local.cc:77-94 (with the indicator cut to [0,1]),
    sharp_interface.h:661-664: densities and viscosities for the indicator values [h] at the points *)
Definition fluid_coefficients (fp : flow_params RNum) (h : list R) (m : matrix R) : matrix R :=
  if variable_material fp
  then set_coefficients (map (fun x => fp_density fp + fp_density_diff fp * x) h) (map (fun x => fp_viscosity fp + fp_viscosity_diff fp * x) h) (dampings (cur m)) m
  else m.

(** what the library does with the matrix object: set-up on a mesh with [n] points, initial Stokes field (the calls of its solver run with an
    AMG preconditioner, navier_stokes.cc:1174), new indicator values, calls of the flow solver *)
Inductive event :=
| Setup (n : nat)
| InitialStokes (calls : list (action R))
| NewIndicator (h : list R)
| Solve (a : action R).
Definition amg_velocity (fp : flow_params RNum) : bool := match fp_precondition_velocity fp with u_amg | u_amg_linear => true | _ => false end.
Definition is_velocity_explicit (fp : flow_params RNum) : bool := match fp_linearization fp with coupled_velocity_explicit => true | _ => false end.
Definition handle (fp : flow_params RNum) (e : event) (m : matrix R) : matrix R :=
  match e with
  | Setup n => setup fp n (is_velocity_explicit fp) m
  | InitialStokes calls => run true calls (stokes_coefficients fp m)
  | NewIndicator h => fluid_coefficients fp h m
  | Solve a => act (amg_velocity fp) a m
  end.
Definition history (fp : flow_params RNum) (l : list event) : matrix R := fold_left (fun m e => handle fp e m) l (MkMatrix no_fields no_fields).

(** navier_stokes_matrix.cc:636-642, 711-713, 831-834, 841-843: the coefficients at point [q] *)
Definition field_or (on : bool) (f : list R) (q : nat) (constant : R) : R := if on then nth q f 0 else constant.
Definition rho_at (fp : flow_params RNum) (f : fields R) (q : nat) : R := field_or (nonempty (densities f)) (densities f) q (fp_density fp).
Definition mu_at (fp : flow_params RNum) (f : fields R) (q : nat) : R := field_or (nonempty (densities f)) (viscosities f) q (fp_viscosity fp).
Definition damping_at (fp : flow_params RNum) (f : fields R) (q : nat) : R := field_or (nonempty (densities f)) (dampings f) q (fp_damping fp).
