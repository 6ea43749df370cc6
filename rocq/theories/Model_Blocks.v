(** * Model of the block preconditioners
    [adaflo::NavierStokesPreconditioner::vmult] (source/navier_stokes_preconditioner.cc:595-737) and
    [BlockPreconditionerSimple::vmult] (source/phase_field.cc:373-408).

    Simplifications: exact real arithmetic; the inner preconditioners (ILU, AMG) and inner Krylov solves are arbitrary
    functions on vectors (an exception thrown by an inner solve leaves some vector in place, which such a function covers). *)
From Coq Require Import Reals List Bool.
From Verif Require Import SumR Model_Parameters.
Import ListNotations.
Open Scope R_scope.

Definition dvec := nat -> R.
Definition mat := nat -> nat -> R.
(** sparse matrix-vector product with n columns *)
Definition mv (n : nat) (A : mat) (x : dvec) : dvec := fun i => sumn n (fun j => A i j * x j).

Record config := MkConfig {
  c_velocity : precondition_velocity; c_pressure : precondition_pressure; c_augmented : bool;
  c_type : physical_type; c_lin : linearization; c_density_positive : bool (* parameters.density > 0 *) }.
Definition is_stationary (t : physical_type) := match t with incompressible_stationary => true | _ => false end.

(** the parts vmult is composed of *)
Record parts := MkParts {
  uu_ilu_vmult : dvec -> dvec; uu_ilu_scalar_multiply : dvec -> dvec; uu_amg_vmult : dvec -> dvec;
  inner_velocity : dvec -> dvec -> dvec;       (* BiCGStab with velocity_vmult, lines 635-668; first argument: the initial guess *)
  pp_mass_vmult : dvec -> dvec;                (* ILU or AMG *)
  mass_cg : dvec -> dvec;                      (* CG on the pressure mass matrix, lines 757-768 *)
  pp_poisson_vmult : dvec -> dvec; poisson_cg : dvec -> dvec;
  convdiff : dvec -> dvec;                     (* pressure_convdiff_vmult *)
  divergence : dvec -> dvec }.                 (* divergence_vmult_add with dst = 0 *)

(** lines 605-668: velocity part; [con_u]: get_constrained_dofs; [old0]: the content of dst.block(0) before the call, which the inner
    solve takes as initial guess (dst.block(0) is not set to zero, unlike the pressure vectors in lines 682, 727, 759) *)
Definition velocity_part (c : config) (inner : bool) (p : parts) (con_u : nat -> bool) (old0 src0 : dvec) : dvec :=
  if inner then inner_velocity p old0 src0
  else match c_velocity c with
       | u_ilu => uu_ilu_vmult p src0
       | u_ilu_scalar => fun i => if con_u i then src0 i else uu_ilu_scalar_multiply p src0 i
       | _ => uu_amg_vmult p src0
       end.
(** lines 741-774 [solve_pressure_mass]; pp_mass is set in compute(), lines 950-971 *)
Definition has_pp_mass (c : config) : bool :=
  c_augmented c || match c_pressure c with p_mass_ilu => true | _ => false end.
Definition solve_pressure_mass (c : config) (p : parts) (v : dvec) : dvec :=
  if has_pp_mass c then pp_mass_vmult p v else mass_cg p v.
(** lines 595-737 [vmult]; [cs]: constraints_schur_complement_only as a flag *)
Definition ns_precondition (c : config) (inner : bool) (p : parts) (con_u cs : nat -> bool) (old0 src0 src1 : dvec) : dvec * dvec :=
  let dst0 := velocity_part c inner p con_u old0 src0 in
  let temp : dvec := fun i => -1 * src1 i + divergence p dst0 i in
  if is_stationary (c_type c) then
    let z : dvec := fun i => if cs i then 0 else poisson_cg p temp i in
    let temp2 : dvec := fun i => if cs i then temp i else convdiff p z i in
    (dst0, solve_pressure_mass c p temp2)
  else
    let m := solve_pressure_mass c p temp in
    if c_density_positive c then
      let q := if inner then poisson_cg p temp else pp_poisson_vmult p temp in
      (dst0, fun i => m i + q i)
    else (dst0, m).
(** lines 2478-2484 [is_variable] *)
Definition is_variable (c : config) (inner : bool) : bool :=
  negb (has_pp_mass c) || inner || is_stationary (c_type c).

(** objects held by shared_ptr *)
Inductive object := Uu_ilu | Uu_ilu_scalar | Uu_amg | Uu_amg_mat | Pp_poisson | Pp_poisson_mat | Pp_mass.
(** lines 901-972 [compute], after assemble_matrices (2372-2378) reset them *)
Definition created (c : config) : list object :=
  (match c_velocity c with u_ilu_scalar => [] | _ => [Uu_amg_mat] end) ++
  (match c_velocity c with u_ilu => [Uu_ilu] | u_ilu_scalar => [Uu_ilu_scalar] | _ => [Uu_amg] end) ++
  (if c_density_positive c then [Pp_poisson_mat; Pp_poisson] else []) ++
  (if has_pp_mass c then [Pp_mass] else []).
(** objects dereferenced by vmult (lines 605-735); poisson only outside of the stationary case if density > 0 *)
Definition velocity_object (v : precondition_velocity) : object :=
  match v with u_ilu => Uu_ilu | u_ilu_scalar => Uu_ilu_scalar | _ => Uu_amg end.
Definition dereferenced_by_vmult (c : config) : list object :=
  [velocity_object (c_velocity c)] ++
  (if is_stationary (c_type c) || c_density_positive c then [Pp_poisson] else []) ++
  (if has_pp_mass c then [Pp_mass] else []).
(** lines 779-845 [solve_projection_system] *)
Definition dereferenced_by_projection (c : config) : list object :=
  [Uu_amg_mat; velocity_object (c_velocity c); Pp_poisson_mat; Pp_poisson] ++ (if has_pp_mass c then [Pp_mass] else []).
(** navier_stokes.cc:561-566 [solve_system]: which of the two runs *)
Definition dereferenced_by_solve (c : config) : list object :=
  match c_lin c with projection => dereferenced_by_projection c | _ => dereferenced_by_vmult c end.

(** ** Cahn-Hilliard *)
(** phase_field.cc:275-278: preconditioner_matrix = M + coefficient K *)
Definition ch_coefficient (sigma eps diffusion_length weight : R) : R :=
  sqrt (75 / 100 * sigma * eps * diffusion_length * diffusion_length / weight).
(** phase_field.cc:419-423 *)
Definition ch_factor_4 (sigma eps : R) : R := 75 / 100 * sigma * eps.
Definition ch_mobility (diffusion_length weight : R) : R := diffusion_length * diffusion_length / weight.
Definition ch_delta_eps (sigma eps diffusion_length weight : R) : R :=
  sqrt (ch_mobility diffusion_length weight / ch_factor_4 sigma eps).
(** phase_field.cc:386-401 [vmult]; sadd(s, a, v): x := s x + a v *)
Definition ch_precondition (prec mass : dvec -> dvec) (factor : R) (src0 src1 : dvec) : dvec * dvec :=
  let temp1 : dvec := fun i => src0 i + factor * src1 i in
  let dst1 := prec temp1 in
  let md := mass dst1 in
  let temp1' : dvec := fun i => md i + - factor * src1 i in
  let dst0 := prec temp1' in
  (dst0, fun i => 1 / factor * dst1 i + - (1 / factor) * dst0 i).
