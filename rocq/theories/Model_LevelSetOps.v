(** * Model of the matrix-free level set operators
    source/level_set_okz_advance_concentration.cc, source/level_set_okz_reinitialization.cc,
    source/level_set_okz_compute_normal.cc, source/level_set_okz_compute_curvature.cc and the assembly of
    source/level_set_okz_matrix.cc.

    Simplifications: exact real arithmetic; one list of quadrature points for all cells (the cell loops only add up);
    shape functions are those of the space with hanging nodes resolved, so the only constrained degrees of freedom are
    homogeneous Dirichlet ones; the linear solvers are oracles that return an exact solution. *)
From Coq Require Import Reals List Bool.
From Verif Require Import SumR Model_Bubble.
Import ListNotations.
Open Scope R_scope.

(** a quadrature point of the scalar level set space *)
Record lpoint := MkLP { l_JxW : R; l_shape : nat -> R; l_grad : nat -> nat -> R; l_diameter : R }.
(** the space: dimension, number of unknowns, constrained unknowns, diagonal of the preconditioner *)
Record lspace := MkLS { l_dim : nat; l_n : nat; l_con : nat -> bool; l_diag : nat -> R }.
Definition lvec := nat -> R.

(** FEEvaluation / FEValues: value and gradient of a coefficient vector at a point *)
Definition lvalue (s : lspace) (p : lpoint) (U : lvec) : R := sumn (l_n s) (fun j => U j * l_shape p j).
Definition lgradient (s : lspace) (p : lpoint) (U : lvec) (d : nat) : R := sumn (l_n s) (fun j => U j * l_grad p j d).
Definition ldot (s : lspace) (a b : nat -> R) : R := sumn (l_dim s) (fun d => a d * b d).
(** read_dof_values: homogeneous constraints read as zero *)
Definition lmask (s : lspace) (U : lvec) : lvec := fun j => if l_con s j then 0 else U j.
(** submit_value / submit_gradient, integrate, distribute_local_to_global: rows of constrained unknowns get nothing *)
Definition ltest (s : lspace) (pts : list lpoint) (val : lpoint -> R) (flux : lpoint -> nat -> R) (i : nat) : R :=
  suml pts (fun p => l_JxW p * (val p * l_shape p i + ldot s (flux p) (l_grad p i))).
Definition lintegrate (s : lspace) (pts : list lpoint) (val : lpoint -> R) (flux : lpoint -> nat -> R) : lvec :=
  fun i => if l_con s i then 0 else ltest s pts val flux i.
(** the loops at the end of the vmult functions: constrained rows are set to diagonal * src *)
Definition set_constrained (s : lspace) (dst src : lvec) : lvec := fun i => if l_con s i then l_diag s i * src i else dst i.
(** constraints.distribute for homogeneous constraints; solution += increment *)
Definition ldistribute (s : lspace) (U : lvec) : lvec := lmask s U.
Definition ladd (U V : lvec) : lvec := fun i => U i + V i.

(** ** Advection, level_set_okz_advance_concentration.cc *)
(** values the operator reads from the clock *)
Record weights := MkW { w_new : R; w_old : R; w_old_old : R; w_use_old_old : bool }.
(** a point of the advection problem: velocity and artificial viscosity (per cell) *)
Record apoint := MkAP { a_point : lpoint; a_vel : nat -> R; a_visc : R }.
(** a quadrature point on a boundary face that is not a symmetry boundary, lines 447-465 *)
Record fpoint := MkFP { f_point : lpoint; f_normal : nat -> R; f_visc : R }.
(** lines 232-259 local_advance_concentration; [stab] = convection_stabilization *)
Definition adv_val (s : lspace) (w : R) (a : apoint) (U : lvec) : R :=
  lvalue s (a_point a) U * w + ldot s (lgradient s (a_point a) U) (a_vel a).
Definition adv_test (s : lspace) (stab : bool) (pts : list apoint) (val : apoint -> R) (flux : apoint -> nat -> R) (i : nat) : R :=
  suml pts (fun a => l_JxW (a_point a) * (val a * l_shape (a_point a) i
                     + (if stab then ldot s (flux a) (l_grad (a_point a) i) else 0))).
(** boundary part of the stabilization, lines 447-465: minus shape * normal . (viscosity * gradient) *)
Definition face_test (s : lspace) (faces : list fpoint) (U : lvec) (i : nat) : R :=
  suml faces (fun f => l_shape (f_point f) i * ldot s (f_normal f) (fun d => f_visc f * lgradient s (f_point f) U d) * l_JxW (f_point f)).
(** lines 403-480 advance_concentration_vmult *)
Definition advance_vmult (s : lspace) (stab : bool) (w : R) (pts : list apoint) (faces : list fpoint) (src : lvec) : lvec :=
  set_constrained s
    (fun i => if l_con s i then 0
              else adv_test s stab pts (fun a => adv_val s w a (lmask s src)) (fun a d => a_visc a * lgradient s (a_point a) (lmask s src) d) i
                   + (if stab then - face_test s faces src i else 0)) src.
(** lines 374-395 and 569-620: right hand side *)
Definition old_value (s : lspace) (w : weights) (a : apoint) (U_old U_old_old : lvec) : R :=
  w_old w * lvalue s (a_point a) U_old + (if w_use_old_old w then w_old_old w * lvalue s (a_point a) U_old_old else 0).
Definition advance_rhs (s : lspace) (stab : bool) (w : weights) (pts : list apoint) (faces : list fpoint) (U U_old U_old_old : lvec) : lvec :=
  fun i => if l_con s i then 0
           else adv_test s stab pts (fun a => - (adv_val s (w_new w) a U + old_value s w a U_old U_old_old))
                                    (fun a d => - a_visc a * lgradient s (a_point a) U d) i
                + (if stab then face_test s faces U i else 0).
(** lines 529-545: Dirichlet values are written into the initial guess; 623-652: solve and add the increment *)
Definition impose (s : lspace) (bc : lvec) (U : lvec) : lvec := fun i => if l_con s i then bc i else U i.
Definition advance_result (s : lspace) (guess increment : lvec) : lvec := ladd guess (ldistribute s increment).

(** level_set_okz_matrix.cc:492-575: cell matrix and right hand side of the matrix-based solver. [tau_stab] is the
    stabilization parameter at the point (lines 507-517). Note the sign convention of old_value (lines 495-498). *)
Definition m_old_value (s : lspace) (w : weights) (a : apoint) (U_old U_old_old : lvec) : R :=
  - w_old w * lvalue s (a_point a) U_old - (if w_use_old_old w then w_old_old w * lvalue s (a_point a) U_old_old else 0).
Definition m_entry (s : lspace) (stab : bool) (w : weights) (tau : apoint -> R) (a : apoint) (i j : nat) : R :=
  let p := a_point a in let u_nabla_eta := ldot s (a_vel a) (l_grad p i) in
  if stab then
    (l_shape p i * w_new w * l_shape p j - u_nabla_eta * l_shape p j
     + u_nabla_eta * tau a * (ldot s (a_vel a) (l_grad p j) + l_shape p j * w_new w)) * l_JxW p
  else
    (** viscosity is zero in this branch, lines 477-489 *)
    (l_shape p i * w_new w * l_shape p j - u_nabla_eta * l_shape p j) * l_JxW p.
Definition m_rhs_point (s : lspace) (stab : bool) (w : weights) (tau : apoint -> R) (a : apoint) (U U_old U_old_old : lvec) (i : nat) : R :=
  let p := a_point a in let u_nabla_eta := ldot s (a_vel a) (l_grad p i) in
  if stab then (l_shape p i + u_nabla_eta * tau a) * m_old_value s w a U_old U_old_old * l_JxW p
  else (l_shape p i * (m_old_value s w a U_old U_old_old - w_new w * lvalue s p U) + u_nabla_eta * lvalue s p U) * l_JxW p.
(** distribute_local_to_global: homogeneous constraints, rows and columns of constrained unknowns are eliminated *)
Definition m_vmult (s : lspace) (stab : bool) (w : weights) (tau : apoint -> R) (pts : list apoint) (src : lvec) : lvec :=
  set_constrained s (fun i => suml pts (fun a => sumn (l_n s) (fun j => m_entry s stab w tau a i j * lmask s src j))) src.
Definition m_rhs (s : lspace) (stab : bool) (w : weights) (tau : apoint -> R) (pts : list apoint) (U U_old U_old_old : lvec) : lvec :=
  fun i => if l_con s i then 0 else suml pts (fun a => m_rhs_point s stab w tau a U U_old U_old_old i).

(** ** Reinitialization, level_set_okz_reinitialization.cc *)
(** lines 62-67 *)
Definition dtau_inv (dim : nat) (minimal_edge_length : R) (subdivisions : R) (step_size : R) : R :=
  Rmax (95/100 / (1 / (INR dim * INR dim) * minimal_edge_length / subdivisions)) (1 / (5 * step_size)).
(** lines 82-85, 158-161 *)
Definition diffusion (epsilon_used degree : R) (p : lpoint) : R := Rmax epsilon_used (l_diameter p / degree).
(** lines 53-106 local_reinitialize; [n] are the stored normals *)
Definition reinit_flux (s : lspace) (eps deg : R) (diffuse_only : bool) (n : lpoint -> nat -> R) (U : lvec) (p : lpoint) (d : nat) : R :=
  if diffuse_only then lgradient s p U d * diffusion eps deg p
  else (diffusion eps deg p * ldot s (n p) (lgradient s p U)) * n p d.
Definition reinit_vmult (s : lspace) (pts : list lpoint) (dti eps deg : R) (diffuse_only : bool) (n : lpoint -> nat -> R) (src : lvec) : lvec :=
  set_constrained s (lintegrate s pts (fun p => dti * lvalue s p (lmask s src)) (reinit_flux s eps deg diffuse_only n (lmask s src))) src.
(** lines 163-187 local_reinitialize_rhs *)
Definition reinit_rhs_flux (s : lspace) (eps deg : R) (diffuse_only : bool) (n : lpoint -> nat -> R) (U : lvec) (p : lpoint) (d : nat) : R :=
  if diffuse_only then - diffusion eps deg p * lgradient s p U d
  else n p d * (5/10 * (1 - lvalue s p U * lvalue s p U) - ldot s (n p) (lgradient s p U) * diffusion eps deg p).
Definition reinit_rhs (s : lspace) (pts : list lpoint) (eps deg : R) (diffuse_only : bool) (n : lpoint -> nat -> R) (U : lvec) : lvec :=
  lintegrate s pts (fun _ => 0) (reinit_rhs_flux s eps deg diffuse_only n U).
(** lines 169-171: normalization of the evaluated normal *)
Definition evaluated_normal (s : lspace) (v : nat -> R) (d : nat) : R := v d / Rmax (1/10000) (sqrt (ldot s v v)).

(** ** Normal projection, level_set_okz_compute_normal.cc:82-183, one component *)
Definition normal_damping (scale min_diameter degree : R) (p : lpoint) : R :=
  scale * (Rmax min_diameter (l_diameter p / degree) * Rmax min_diameter (l_diameter p / degree)).
Definition normal_vmult (s : lspace) (pts : list lpoint) (scale mind deg : R) (src : lvec) : lvec :=
  set_constrained s (lintegrate s pts (fun p => lvalue s p (lmask s src)) (fun p d => lgradient s p (lmask s src) d * normal_damping scale mind deg p)) src.
(** lines 123-156: component c of the right hand side *)
Definition normal_rhs (s : lspace) (pts : list lpoint) (U : lvec) (c : nat) : lvec :=
  lintegrate s pts (fun p => lgradient s p U c) (fun _ _ => 0).

(** ** Curvature projection, level_set_okz_compute_curvature.cc *)
(** lines 86-133: diffusion_setting 0, 1, 2 *)
Definition curvature_local (s : lspace) (pts : list lpoint) (setting : nat) (mind deg : R) (src : lvec) : lvec :=
  lintegrate s pts (fun p => if Nat.ltb setting 2 then lvalue s p (lmask s src) else 0)
                   (fun p d => if Nat.eqb (Nat.modulo setting 2) 1 then lgradient s p (lmask s src) d * normal_damping 1 mind deg p else 0).
(** lines 263-304: the parameter is a bool *)
Definition curvature_vmult (s : lspace) (pts : list lpoint) (mind deg : R) (src : lvec) (apply_diffusion : bool) : lvec :=
  set_constrained s (curvature_local s pts (if apply_diffusion then 1%nat else 0%nat) mind deg src) src.
(** C++ conversion of an integer to bool *)
Definition int_to_bool (n : nat) : bool := negb (Nat.eqb n 0).
(** lines 384-391: explicit damping; the call passes the integer 2. preconditioner.vmult multiplies by the inverse diagonal *)
Definition damping_step (s : lspace) (pts : list lpoint) (mind deg : R) (inv_diag : nat -> R) (arg : nat) (k : lvec) : lvec :=
  ldistribute s (fun i => k i + - (5/100) * (inv_diag i * curvature_vmult s pts mind deg k (int_to_bool arg) i)).
Fixpoint damping_steps (s : lspace) (pts : list lpoint) (mind deg : R) (inv_diag : nat -> R) (n : nat) (k : lvec) : lvec :=
  match n with O => k | S n => damping_steps s pts mind deg inv_diag n (damping_step s pts mind deg inv_diag 2 k) end.
Definition smooth_curvature (s : lspace) (pts : list lpoint) (mind deg : R) (inv_diag : nat -> R) (k : lvec) : lvec :=
  damping_steps s pts mind deg inv_diag 8 k.
(** lines 362-377 *)
Definition correct_curvature (dim : nat) (eps c k : R) : R :=
  if Rltb (1/10000) k then
    let distance := if Rltb (1/100) (1 - c * c) then eps * ln ((1 + c) / (1 - c)) else 0 in
    1 / (1 / k + distance / (INR dim - 1))
  else k.
(** lines 151-170: normalization of nodal normals *)
Definition normalize_nodal (s : lspace) (v : nat -> R) (d : nat) : R :=
  let norm := sqrt (ldot s v v) in if Rltb (1/100) norm then v d / norm else 0.
