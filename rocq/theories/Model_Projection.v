(** * Model of the projection scheme (fractional step with incremental rotational pressure correction)
    source/navier_stokes_preconditioner.cc:779-850 (solve_projection_system), 359-416 (PressurePoissonMatrix), 930-946,
    source/navier_stokes_matrix.cc:298-334 (divergence_vmult_add), 388-417, 922-1050 (local_divergence, local_pressure_poisson),
    source/navier_stokes.cc:561-566, 659-718, 838-886, 1046-1077 (a time step).

    Simplifications: exact real arithmetic, one process.  The shape functions are those of the unknowns with hanging node weights already
    worked in, the constraints of velocity and pressure are homogeneous lines.  The linear solvers are inputs: their results are
    arbitrary vectors in the model, theorems state in which equations they are assumed to be exact.  A cell batch is one cell.
    The pressure mass system of the projection scheme has coefficient one (C83 models the matrices). *)
From Coq Require Import Reals ZArith List Bool.
From Verif Require Import Num SumR Model_TimeStepping Model_NonlinearSolver Model_MatrixState Model_Transfer Model_BoundaryValues.
Import ListNotations.
Open Scope R_scope.

(** ** Divergence, navier_stokes_matrix.cc:922-962 *)
(** a quadrature point of a cell: JxW, divergences of the velocity shape functions, pressure shape functions *)
Record dpoint := MkDP { dp_JxW : R; dp_div : nat -> R; dp_psi : nat -> R }.
Definition no_point : dpoint := MkDP 0 (fun _ => 0) (fun _ => 0).
(** a cell: its points and its entries of variable_viscosities (begin_viscosities(cell)) *)
Record dcell := MkDC { dc_points : list dpoint; dc_mu : list R }.
(** velocity.read_dof_values_plain, evaluate, get_divergence *)
Definition divergence_at (n_u : nat) (u : field) (p : dpoint) : R := sumn n_u (fun i => u i * dp_div p i).
(** lines 947-955: the weight of point q; [variable]: !variable_viscosities.empty(); [mu_values]: the pointer of line 932-933, which is
    not advanced in the loop over cells *)
Definition div_weight (weighted variable : bool) (nu : R) (mu_values : list R) (q : nat) : R :=
  if weighted then (if variable then - nth q mu_values 0 else - nu) else -1.
(** lines 935-961 for one range of cells *)
Definition local_divergence (n_u : nat) (weighted variable : bool) (nu : R) (range : list dcell) (u : field) (dst : field) : field :=
  let mu_values := match range with c :: _ => dc_mu c | [] => [] end in
  fold_left (fun (dst : field) c => fun j =>
    dst j + sumn (length (dc_points c)) (fun q => let p := nth q (dc_points c) no_point in
      div_weight weighted variable nu mu_values q * divergence_at n_u u p * dp_psi p j * dp_JxW p)) range dst.
(** lines 298-334 divergence_vmult_add: the cell loop goes through the ranges of cells *)
Definition divergence_vmult_add (n_u : nat) (weighted variable : bool) (nu : R) (ranges : list (list dcell)) (dst u : field) : field :=
  fold_left (fun dst range => local_divergence n_u weighted variable nu range u dst) ranges dst.

(** ** Pressure Poisson operator *)
(** a quadrature point of the pressure quadrature: JxW and grad psi_i . grad psi_j *)
Record gpoint := MkGP { gp_JxW : R; gp_grad : nat -> nat -> R }.
(** integral of grad phi . grad psi_i *)
Definition dirichlet_form (n_p : nat) (pts : list gpoint) (x : field) (i : nat) : R :=
  suml pts (fun p => gp_JxW p * sumn n_p (fun j => x j * gp_grad p i j)).
(** navier_stokes_matrix.cc:1024-1035 in the projection scheme (no variable coefficients): 1 / (weight * min density) *)
Definition min_density (rho rho_diff : R) : R := Rmin rho (rho + rho_diff).
Definition poisson_coefficient (weight rho rho_diff : R) : R := 1 / (weight * min_density rho rho_diff).
(** lines 388-417 with the current weight of the clock; [con_p]: constrained in the pressure space *)
Definition matrix_free_poisson (n_p : nat) (pts : list gpoint) (con_p : nat -> bool) (weight rho rho_diff : R) (x : field) : field :=
  fun i => if con_p i then x i
           else poisson_coefficient weight rho rho_diff * dirichlet_form n_p pts (fun j => if con_p j then 0 else x j) i.
(** the assembled matrix_p (navier_stokes_preconditioner.cc:2060-2165, 2455-2474): rows of unknowns constrained in the Schur complement are
    diagonal; the coefficient is the one at the time of assembly *)
Definition assembled_poisson (n_p : nat) (pts : list gpoint) (con_s : nat -> bool) (diag : nat -> R) (weight_built rho rho_diff : R) (x : field) : field :=
  fun i => if con_s i then diag i * x i
           else poisson_coefficient weight_built rho rho_diff * dirichlet_form n_p pts (fun j => if con_s j then 0 else x j) i.
(** lines 933-937 and 387-415: pp_poisson_mat->vmult; the assembled matrix is used for augmented Taylor-Hood and for linear pressures;
    [con_s]: constrained in the Schur complement, all constraints of the pressure space among them; the unknowns with a pressure constraint
    are those of con_p *)
Definition uses_assembled (augmented : bool) (pressure_degree : nat) : bool := augmented || Nat.eqb pressure_degree 1.
Definition poisson_operator (augmented : bool) (pressure_degree n_p : nat) (pts : list gpoint) (con_p con_s : nat -> bool) (diag : nat -> R)
    (weight_built weight rho rho_diff : R) (x : field) : field :=
  let cs := schur_only n_p (fun i => i) con_s con_p in
  snd (poisson_vmult (uses_assembled augmented pressure_degree)
         (assembled_poisson n_p pts con_s diag weight_built rho rho_diff)
         (matrix_free_poisson n_p pts con_p weight rho rho_diff) cs (map diag cs) x).

(** navier_stokes_matrix.cc:423-455, 1056-1080 in the projection scheme: coefficient one, no projection onto zero mean *)
Definition mass_form (n_p : nat) (pts : list dpoint) (x : field) (i : nat) : R :=
  suml pts (fun p => dp_JxW p * sumn n_p (fun j => x j * dp_psi p j) * dp_psi p i).
Definition matrix_free_mass (n_p : nat) (pts : list dpoint) (con_p : nat -> bool) (x : field) : field :=
  fun i => if con_p i then x i else mass_form n_p pts (fun j => if con_p j then 0 else x j) i.

(** ** solve_projection_system, navier_stokes_preconditioner.cc:779-850 *)
(** results of the three linear solvers: velocity (797-805), Poisson (824), mass (833-843) *)
Record solver_results := MkResults { r_velocity : field; r_poisson : field; r_mass : field }.
Record projection_result := MkProjection {
  pr_update_u : field;     (* solution_update.block(0) *)
  pr_update_p : field;     (* solution_update.block(1) *)
  pr_phi : field;          (* projection_update = solution_old.block(1) *)
  pr_u_copy : field;       (* solution_u_copy *)
  pr_rhs_poisson : field;  (* system_rhs.block(1), lines 811-812 *)
  pr_rhs_mass : field      (* system_rhs.block(1), lines 828-829 *)
}.
Definition add (a b : field) : field := fun i => a i + b i.
Definition solve_projection_system (n_u : nat) (variable : bool) (nu : R) (ranges : list (list dcell)) (con_u con_schur : lines)
    (r : solver_results) (solution_u : field) : projection_result :=
  let update_u := distribute con_u (r_velocity r) in (* 807 *)
  let u_copy := add solution_u update_u in (* 789, 808 *)
  let phi := distribute con_schur (r_poisson r) in (* 825 *)
  let chi := distribute con_schur (r_mass r) in (* 845 *)
  {| pr_update_u := update_u; pr_update_p := add chi phi; (* 846 *)
     pr_phi := phi; pr_u_copy := u_copy;
     pr_rhs_poisson := divergence_vmult_add n_u false variable nu ranges zero u_copy;
     pr_rhs_mass := divergence_vmult_add n_u true variable nu ranges zero u_copy |}.

(** ** A time step in the projection scheme *)
(** what surrounds the solvers in one step: the clock after next(), boundary conditions of the velocity (navier_stokes.cc:1216-1253), the
    results of the linear solvers, the corrections of the pressure at the end (lines 985-1045 pressure_fix, 1046-1077 open boundaries) *)
Record proj_step := MkStep { ps_clock : clock RNum; ps_apply_bc : field -> field; ps_results : solver_results; ps_finish_p : field -> field }.
Section Step.
Context (n_u : nat) (variable : bool) (nu : R) (ranges : list (list dcell)) (con_u con_schur : lines).
(** lines 659-718, then apply_boundary_conditions (725-735): the fields the residual is evaluated with *)
Definition started (st : proj_step) (v : vectors) : vectors :=
  let v := shift_projection (ps_clock st) (shift_block (ps_clock st) 0%nat v) in
  put Sol 0%nat (ps_apply_bc st (v Sol 0%nat)) v.
(** lines 840-843, 885 with 563-565, 886, 985-1077; the loop ends after one iteration (lines 911-919) *)
Definition finished (st : proj_step) (v : vectors) : vectors :=
  let v := put Sol 1%nat (v Upd 1%nat) (put Upd 1%nat (v Sol 1%nat) v) in
  let r := solve_projection_system n_u variable nu ranges con_u con_schur (ps_results st) (v Sol 0%nat) in
  let v := put Old 1%nat (pr_phi r) (put Upd 1%nat (pr_update_p r) (put Upd 0%nat (pr_update_u r) v)) in
  let v := put Sol 1%nat (add (v Sol 1%nat) (v Upd 1%nat)) (put Sol 0%nat (add (v Sol 0%nat) (v Upd 0%nat)) v) in
  put Sol 1%nat (ps_finish_p st (v Sol 1%nat)) v.
Definition projection_time_step (v : vectors) (st : proj_step) : vectors := finished st (started st v).
Definition projection_run (steps : list proj_step) (v : vectors) : vectors := fold_left projection_time_step steps v.
End Step.
