(** * Model of the selection of compiled kernels
    The cell kernels are templates over the polynomial degrees; macros (EXPAND_OPERATIONS) select the instance for the elements that are
    used at run time.  source/navier_stokes_matrix.cc:64-83, include/adaflo/level_set_okz_template_instantations.h,
    source/level_set_okz_advance_concentration.cc:103-176, source/level_set_okz_compute_normal.cc:25-49,
    source/level_set_okz_compute_curvature.cc:26-50, source/level_set_okz_reinitialization.cc:25-48,
    source/level_set_okz_preconditioner.cc:30-54, source/phase_field_local.cc:368-418, 475-492, 517-532; the registration of elements
    and quadrature formulas is source/two_phase_base.cc:237-270, source/level_set_base.cc:52-63, source/navier_stokes.cc:395-450.

    Simplifications: what a kernel computes is modelled elsewhere (C24, C42-C45, C61, C65, C68); here a kernel is the list of the
    FEEvaluation objects it creates.  deal.II requires of such an object that the template degree and the template number of
    quadrature points are those of the registered element and quadrature formula, or that the degree is -1 (sizes found at run time).
    The quadrature formula is represented by the number of its points per direction; which degrees deal.II has on simplices, and the
    checks its debug mode makes, are not modelled.  Degrees in the code are unsigned: [nat]. *)
From Coq Require Import List Bool Arith ZArith Reals.
Import ListNotations.

(** parameters.h: use_simplex_mesh, velocity_degree, concentration_subdivisions; [variable_poisson] says which variant of the pressure
    Poisson kernel is used (navier_stokes_matrix.cc:975-981, 1002) *)
Record config := MkConfig { use_simplex : bool; vd : nat; ls : nat; variable_poisson : bool }.

(** an FEEvaluation<dim, degree, n_q_points_1d>(data, dof, quad) *)
Record evaluator := MkEv { e_dof : nat; e_quad : nat; e_degree : Z; e_nq : Z }.

(** registered elements: velocity, pressure and three times the level set element (two_phase_base.cc:241-245) *)
Definition element_degree (c : config) (dof : nat) : nat :=
  match dof with O => vd c | 1 => vd c - 1 | _ => ls c end.
(** registered quadrature formulas: two_phase_base.cc:255-270; QIterated(QGauss<1>(2), ls) has 2 * ls points, a simplex formula is
    only identified by the number it is constructed with *)
Definition quadrature_points (c : config) (quad : nat) : nat :=
  match quad with O => vd c + 1 | 1 => vd c | _ => if use_simplex c then ls c + 1 else 2 * ls c end.

Inductive outcome := Ran (evs : list evaluator) | Threw | Nothing.

(** ** Kernels, by template degrees *)
Section Kernels.
Open Scope Z_scope.
Definition vel_degree_of (d : Z) : Z := if d =? -1 then -1 else d + 1.
(** navier_stokes_matrix.cc:611-617, 929-931: local_operation (residual, vmult) and local_divergence *)
Definition k_ns (d : Z) : list evaluator := [MkEv 0 0 (vel_degree_of d) (d + 2); MkEv 1 0 d (d + 2); MkEv 0 0 (vel_degree_of d) (d + 2); MkEv 0 0 (vel_degree_of d) (d + 2)].
Definition k_divergence (d : Z) : list evaluator := [MkEv 0 0 (vel_degree_of d) (d + 2); MkEv 1 0 d (d + 2)].
(** navier_stokes_matrix.cc:980-1027 *)
Definition k_poisson (variable : bool) (d : Z) : list evaluator := if variable then [MkEv 1 0 d (d + 2)] else [MkEv 1 1 d (d + 1)].
(** navier_stokes_matrix.cc:1046, 1084 *)
Definition k_mass (d : Z) : list evaluator := [MkEv 1 1 d (d + 1)].
(** navier_stokes_matrix.cc:1109 *)
Definition k_convdiff (d : Z) : list evaluator := [MkEv 1 0 d (d + 2)].
Definition nq_ls (c : Z) : Z := if c =? -1 then 0 else 2 * c.
(** level_set_okz_advance_concentration.cc:228-232, 300-317 *)
Definition k_advance (c : Z) : list evaluator := [MkEv 2 2 c (nq_ls c)].
Definition k_advance_rhs (c u : Z) : list evaluator := [MkEv 2 2 c (nq_ls c); MkEv 2 2 c (nq_ls c); MkEv 2 2 c (nq_ls c); MkEv 0 2 u (nq_ls c); MkEv 0 2 u (nq_ls c); MkEv 0 2 u (nq_ls c)].
(** level_set_okz_compute_normal.cc:93-96, 134-140 *)
Definition k_normal (c : Z) : list evaluator := [MkEv 4 2 c (nq_ls c)].
Definition k_normal_rhs (c : Z) : list evaluator := [MkEv 4 2 c (nq_ls c); MkEv 2 2 c (nq_ls c)].
(** level_set_okz_compute_curvature.cc:97-100, 223-229 *)
Definition k_curvature (c : Z) : list evaluator := [MkEv 3 2 c (nq_ls c)].
Definition k_curvature_rhs (c : Z) : list evaluator := [MkEv 4 2 c (nq_ls c); MkEv 3 2 c (nq_ls c)].
(** level_set_okz_reinitialization.cc:71-74, 140-147 *)
Definition k_reinit (c : Z) : list evaluator := [MkEv 2 2 c (nq_ls c)].
Definition k_reinit_rhs (c : Z) : list evaluator := [MkEv 2 2 c (nq_ls c); MkEv 4 2 c (nq_ls c)].
(** level_set_okz_preconditioner.cc:131-132, called with dof_index 2 and quad_index 2 (level_set_okz.cc:226-234) *)
Definition k_projection (c : Z) : list evaluator := [MkEv 2 2 c (nq_ls c)].
(** level_set_okz.cc:329-335 *)
Definition k_force (c u : Z) : list evaluator :=
  let nq := if c =? -1 then 0 else u + 1 in
  [MkEv 2 0 c nq; MkEv 3 0 c nq; MkEv 0 0 (if c =? -1 then -1 else u) nq; MkEv 1 0 (if c =? -1 then -1 else u - 1) nq].
(** phase_field_local.cc:58-61, 144-148, 227-228, 286 *)
Definition k_pf_force (c u : Z) : list evaluator := [MkEv 2 0 c (u + 1); MkEv 2 0 c (u + 1); MkEv 0 0 u (u + 1); MkEv 1 0 (u - 1) (u + 1)].
Definition k_pf_residual (c u : Z) : list evaluator := [MkEv 2 2 c (2 * c); MkEv 3 2 c (2 * c); MkEv 0 2 u (2 * c); MkEv 2 2 c (2 * c); MkEv 2 2 c (2 * c)].
Definition k_pf_vmult (c : Z) : list evaluator := [MkEv 2 2 c (2 * c); MkEv 3 2 c (2 * c)].
Definition k_pf_mass (c : Z) : list evaluator := [MkEv 2 2 c (2 * c)].
End Kernels.

(** ** The macros *)
Definition assert_throw (b : bool) (o : outcome) : outcome := if b then o else Threw.
Definition between (l x u : nat) : bool := Nat.leb l x && Nat.leb x u.
(** a chain of [if (x == a) f(a) else if ...] without a last else *)
Fixpoint chain (l : list nat) (x : nat) (f : Z -> outcome) : outcome :=
  match l with [] => Nothing | a :: l => if Nat.eqb x a then f (Z.of_nat a) else chain l x f end.
(** navier_stokes_matrix.cc:64-83; degree_p is the degree of the registered pressure element *)
Definition expand_ns (c : config) (kernel : Z -> list evaluator) : outcome :=
  let degree_p := element_degree c 1 in
  assert_throw (between 1 degree_p 5)
    (if use_simplex c then Ran (kernel (-1)%Z)
     else match chain [1; 2; 3; 4; 5] degree_p (fun d => Ran (kernel d)) with Nothing => Threw | o => o end).
(** level_set_okz_template_instantations.h *)
Definition expand_force (c : config) (kernel : Z -> Z -> list evaluator) : outcome :=
  if use_simplex c then Ran (kernel (-1)%Z (-1)%Z)
  else
    let degree_u := element_degree c 0 in
    assert_throw (between 2 degree_u 5) (assert_throw (between 1 (ls c) 4)
      (chain [1; 2; 3; 4] (ls c) (fun d => chain [2; 3; 4; 5] degree_u (fun u => Ran (kernel d u))))).
(** level_set_okz_advance_concentration.cc:103-176 *)
Definition expand_advance (c : config) (kernel : Z -> Z -> list evaluator) : outcome :=
  if use_simplex c then Ran (kernel (-1)%Z (-1)%Z)
  else
    let degree_u := element_degree c 0 in
    let ls_degree := element_degree c 2 in
    assert_throw (between 1 degree_u 5) (assert_throw (between 1 ls_degree 4)
      (chain [1; 2; 3; 4] ls_degree (fun d => chain [1; 2; 3; 4; 5] degree_u (fun u => Ran (kernel d u))))).
(** level_set_okz_compute_normal.cc:25-49, level_set_okz_compute_curvature.cc:26-50, level_set_okz_reinitialization.cc:25-48,
    level_set_okz_preconditioner.cc:30-54 *)
Definition expand_ls (c : config) (kernel : Z -> list evaluator) : outcome :=
  if use_simplex c then Ran (kernel (-1)%Z)
  else
    let ls_degree := element_degree c 2 in
    assert_throw (between 1 ls_degree 4) (chain [1; 2; 3; 4] ls_degree (fun d => Ran (kernel d))).
(** phase_field_local.cc:368-418 *)
Definition expand_pf (c : config) (kernel : Z -> Z -> list evaluator) : outcome :=
  let degree_u := element_degree c 0 in
  assert_throw (between 2 degree_u 5) (assert_throw (between 1 (ls c) 4)
    (chain [1; 2; 3; 4] (ls c) (fun d => chain [2; 3; 4; 5] degree_u (fun u => Ran (kernel d u))))).
(** phase_field_local.cc:475-492: no assertion, no last else *)
Definition expand_pf_vmult (c : config) (kernel : Z -> list evaluator) : outcome :=
  chain [1; 2; 3; 4] (element_degree c 2) (fun d => Ran (kernel d)).
(** phase_field_local.cc:517-532 *)
Definition expand_pf_mass (c : config) (kernel : Z -> list evaluator) : outcome :=
  assert_throw (between 1 (element_degree c 2) 4) (chain [1; 2; 3; 4] (element_degree c 2) (fun d => Ran (kernel d))).

(** ** The calls *)
Inductive op :=
  | NsVmult | NsResidual | NsDivergence | NsPoisson | NsMass | NsMassWeight | NsConvdiff
  | LsAdvance | LsAdvanceRhs | LsNormal | LsNormalRhs | LsCurvature | LsCurvatureRhs | LsReinit | LsReinitRhs | LsProjection | LsForce
  | PfForce | PfResidual | PfVmult | PfMass.
Definition call (c : config) (o : op) : outcome :=
  match o with
  | NsVmult | NsResidual => expand_ns c k_ns
  | NsDivergence => expand_ns c k_divergence
  | NsPoisson => expand_ns c (k_poisson (variable_poisson c))
  | NsMass | NsMassWeight => expand_ns c k_mass
  | NsConvdiff => expand_ns c k_convdiff
  | LsAdvance => expand_advance c (fun d _ => k_advance d)
  | LsAdvanceRhs => expand_advance c k_advance_rhs
  | LsNormal => expand_ls c k_normal
  | LsNormalRhs => expand_ls c k_normal_rhs
  | LsCurvature => expand_ls c k_curvature
  | LsCurvatureRhs => expand_ls c k_curvature_rhs
  | LsReinit => expand_ls c k_reinit
  | LsReinitRhs => expand_ls c k_reinit_rhs
  | LsProjection => expand_ls c k_projection
  | LsForce => expand_force c k_force
  | PfForce => expand_pf c k_pf_force
  | PfResidual => expand_pf c k_pf_residual
  | PfVmult => expand_pf_vmult c k_pf_vmult
  | PfMass => expand_pf_mass c k_pf_mass
  end.
(** calls one after the other; an exception ends the program.  The result is what every call that returned did, and whether all did *)
Fixpoint run (c : config) (l : list op) : list outcome * bool :=
  match l with
  | [] => ([], true)
  | o :: l => match call c o with Threw => ([], false) | r => let '(rs, b) := run c l in (r :: rs, b) end
  end.
(** the Navier-Stokes solver: which of these are called depends on the options, all go through the same macro *)
Definition ns_calls : list op := [NsMassWeight; NsResidual; NsVmult; NsDivergence; NsPoisson; NsMass; NsConvdiff].
(** level set: set-up (level_set_okz.cc:215-235, level_set_base.cc:140-160: reinitialization with normals) and time step
    (level_set_base.cc:239-300: advance, reinitialize, force (normal, curvature), Navier-Stokes) *)
Definition ls_setup : list op := [LsProjection; LsNormalRhs; LsNormal; LsReinitRhs; LsReinit].
Definition ls_step : list op := [LsAdvanceRhs; LsAdvance; LsNormalRhs; LsNormal; LsReinitRhs; LsReinit; LsNormalRhs; LsNormal; LsCurvatureRhs; LsCurvature; LsForce].
(** phase field: phase_field.cc:56-61 (constructor: the pressure element is FE_Q), 337-369 (residual, then the solver, in which the mass matrix
    is part of the preconditioner), 468-470 (force, Navier-Stokes) *)
Definition pf_constructor (c : config) (augmented : bool) : bool := negb (use_simplex c) && negb augmented.
Definition pf_step : list op := [PfResidual; PfVmult; PfMass; PfForce].

(** ** Lengths inside the kernels *)
Section Lengths.
Open Scope R_scope.
(** the template degree a level set kernel sees *)
Definition template_degree (c : config) : Z := if use_simplex c then (-1)%Z else Z.of_nat (ls c).
(** two_phase_base.cc:290-292; [h] is the largest cell on the finest level *)
Definition epsilon_used (epsilon : R) (c : config) (h : R) : R := epsilon / INR (ls c) * h.
(** level_set_okz_compute_normal.cc:97-98, 107-110; level_set_okz_compute_curvature.cc:101-102, 115-121 *)
Definition damping_length (c : config) (epsilon eps_used diameter : R) : R := Rmax (eps_used / epsilon) (diameter / IZR (template_degree c)).
(** level_set_okz_preconditioner.cc:135-143: fe.tensor_degree() *)
Definition matrix_damping_length (c : config) (epsilon eps_used diameter : R) : R := Rmax (eps_used / epsilon) (diameter / INR (element_degree c 2)).
(** level_set_okz_reinitialization.cc:83-85 *)
Definition diffusion_length (c : config) (eps_used diameter : R) : R := Rmax eps_used (diameter / IZR (template_degree c)).
End Lengths.
