(** * Model of the Cahn-Hilliard solver: source/phase_field.cc and source/phase_field_local.cc

    Simplifications: exact real arithmetic; one list of quadrature points for all cells; hanging nodes resolved, so the only
    constrained degrees of freedom are the homogeneous Dirichlet ones of the fluid type boundaries, which are the same for
    the phase field and the chemical potential (phase_field.cc:119-136); GMRES is an oracle. *)
From Coq Require Import Reals List Bool.
From Verif Require Import SumR Model_Bubble Model_LevelSetOps.
Import ListNotations.
Open Scope R_scope.

Definition Reqb (x y : R) : bool := if Req_EM_T x y then true else false.
(** quadrature point with the velocity of the flow solver there *)
Record cpoint := MkCP { c_pt : lpoint; c_vel : nat -> R }.
(** quadrature point of a face in the list built in phase_field.cc:145-177: JxW and the column of face_matrix *)
Record cface := MkCF { cf_JxW : R; cf_matrix : nat -> R }.
(** diffusion_length, surface_tension, epsilon_used, contact_angle *)
Record chpar := MkCH { ch_length : R; ch_sigma : R; ch_eps : R; ch_contact : R }.
(** the two blocks of the solution: phase field and chemical potential *)
Record block2 := MkB2 { b_c : lvec; b_w : lvec }.
Definition b_add (U V : block2) : block2 := MkB2 (ladd (b_c U) (b_c V)) (ladd (b_w U) (b_w V)).
Definition b_sub (U V : block2) : block2 := MkB2 (fun i => b_c U i - b_c V i) (fun i => b_w U i - b_w V i).
Definition b_scal (t : R) (U : block2) : block2 := MkB2 (fun i => t * b_c U i) (fun i => t * b_w U i).
(** constraints.distribute on both blocks, phase_field.cc:452-453 *)
Definition b_distribute (s : lspace) (U : block2) : block2 := MkB2 (ldistribute s (b_c U)) (ldistribute s (b_w U)).

(** phase_field_local.cc:151-155, 234-238 *)
Definition inv_time_weight (w : weights) : R := 1 / w_new w.
Definition factor_mobility (p : chpar) (w : weights) : R := inv_time_weight w * ch_length p * ch_length p.
Definition factor_2 (p : chpar) : R := 15/10 * ch_sigma p / ch_eps p.
Definition factor_4 (p : chpar) : R := 75/100 * ch_sigma p * ch_eps p.

(** values stored by the residual evaluation for the next linear operator: evaluated_convection, evaluated_phi,
    face_evaluated_c *)
Record stored := MkSt { st_vel : cpoint -> nat -> R; st_c : cpoint -> R; st_face : cface -> R }.

(** phase_field_local.cc:184-207: values and fluxes submitted at a point *)
Definition res0_val (s : lspace) (w : weights) (U : block2) (c_old c_old_old : lvec) (p : cpoint) : R :=
  lvalue s (c_pt p) (b_c U) + w_old w * inv_time_weight w * lvalue s (c_pt p) c_old
  + (if w_use_old_old w then w_old_old w * inv_time_weight w * lvalue s (c_pt p) c_old_old else 0)
  + ldot s (lgradient s (c_pt p) (b_c U)) (c_vel p) * inv_time_weight w.
Definition res0_flux (s : lspace) (par : chpar) (w : weights) (U : block2) (p : cpoint) (d : nat) : R :=
  factor_mobility par w * lgradient s (c_pt p) (b_w U) d.
Definition res1_val (s : lspace) (par : chpar) (U : block2) (p : cpoint) : R :=
  let c := lvalue s (c_pt p) (b_c U) in lvalue s (c_pt p) (b_w U) - factor_2 par * c * (c * c - 1).
Definition res1_flux (s : lspace) (par : chpar) (U : block2) (p : cpoint) (d : nat) : R :=
  - factor_4 par * lgradient s (c_pt p) (b_c U) d.
(** integrate and distribute_local_to_global, before constraints *)
Definition ctest (s : lspace) (pts : list cpoint) (val : cpoint -> R) (flux : cpoint -> nat -> R) (i : nat) : R :=
  suml pts (fun p => l_JxW (c_pt p) * (val p * l_shape (c_pt p) i + ldot s (flux p) (l_grad (c_pt p) i))).
(** phase_field_local.cc:318-323: value on the face from dofs read through the constraints (constrained ones as zero) *)
Definition face_value (s : lspace) (f : cface) (c : lvec) : R := sumn (l_n s) (fun i => lmask s c i * cf_matrix f i).
(** phase_field_local.cc:324-333 operation 1 *)
Definition contact_res (s : lspace) (par : chpar) (U : block2) (f : cface) : R :=
  let v := face_value s f (b_c U) in ch_contact par * ch_sigma par * (75/100) * (v * v - 1) * cf_JxW f.
(** phase_field_local.cc:334-337 operation 0 *)
Definition contact_lin (s : lspace) (par : chpar) (st : stored) (D : block2) (f : cface) : R :=
  ch_contact par * ch_sigma par * (15/10) * face_value s f (b_c D) * st_face st f * cf_JxW f.
(** phase_field_local.cc:339-350; lines 304-305: nothing without a contact angle *)
Definition contact_test (s : lspace) (par : chpar) (faces : list cface) (ev : cface -> R) (i : nat) : R :=
  if Reqb (ch_contact par) 0 then 0 else suml faces (fun f => cf_matrix f i * ev f).

(** phase_field_local.cc:138-216 local_residual, 444-466 compute_residual *)
Definition ch_residual (s : lspace) (par : chpar) (w : weights) (pts : list cpoint) (faces : list cface)
    (c_old c_old_old : lvec) (U : block2) : block2 * stored :=
  (MkB2 (fun i => if l_con s i then 0 else ctest s pts (res0_val s w U c_old c_old_old) (res0_flux s par w U) i)
        (fun i => if l_con s i then 0
                  else ctest s pts (res1_val s par U) (res1_flux s par U) i
                       + contact_test s par faces (contact_res s par U) i),
   MkSt (fun p => c_vel p) (fun p => lvalue s (c_pt p) (b_c U)) (fun f => face_value s f (b_c U))).

(** phase_field_local.cc:221-275 local_vmult *)
Definition lin0_val (s : lspace) (w : weights) (st : stored) (D : block2) (p : cpoint) : R :=
  lvalue s (c_pt p) (lmask s (b_c D)) + ldot s (lgradient s (c_pt p) (lmask s (b_c D))) (st_vel st p) * inv_time_weight w.
Definition lin0_flux (s : lspace) (par : chpar) (w : weights) (D : block2) (p : cpoint) (d : nat) : R :=
  factor_mobility par w * lgradient s (c_pt p) (lmask s (b_w D)) d.
Definition lin1_val (s : lspace) (par : chpar) (st : stored) (D : block2) (p : cpoint) : R :=
  lvalue s (c_pt p) (lmask s (b_w D))
  - factor_2 par * lvalue s (c_pt p) (lmask s (b_c D)) * (3 * st_c st p * st_c st p - 1).
Definition lin1_flux (s : lspace) (par : chpar) (D : block2) (p : cpoint) (d : nat) : R :=
  - factor_4 par * lgradient s (c_pt p) (lmask s (b_c D)) d.
(** phase_field_local.cc:470-507 vmult *)
Definition ch_vmult (s : lspace) (par : chpar) (w : weights) (pts : list cpoint) (faces : list cface) (st : stored)
    (D : block2) : block2 :=
  MkB2 (fun i => if l_con s i then b_c D i else ctest s pts (lin0_val s w st D) (lin0_flux s par w D) i)
       (fun i => if l_con s i then b_w D i
                 else ctest s pts (lin1_val s par st D) (lin1_flux s par D) i
                      + contact_test s par faces (contact_lin s par st D) i).

(** phase_field_local.cc:280-296, 512-542 local_mass, mass_vmult *)
Definition ch_mass_vmult (s : lspace) (pts : list lpoint) (src : lvec) : lvec :=
  fun i => if l_con s i then src i else ltest s pts (fun p => lvalue s p (lmask s src)) (fun _ _ => 0) i.
(** phase_field.cc:268-300: matrix of the preconditioner (constrained rows and columns eliminated) *)
Definition ch_coefficient (par : chpar) (w : weights) : R :=
  sqrt (75/100 * ch_sigma par * ch_eps par * ch_length par * ch_length par / w_new w).
Definition ch_precond_vmult (s : lspace) (pts : list lpoint) (coefficient : R) (diag : nat -> R) (src : lvec) : lvec :=
  fun i => if l_con s i then diag i * src i
           else suml pts (fun p => sumn (l_n s) (fun j =>
             (l_shape p i * l_shape p j + coefficient * ldot s (l_grad p i) (l_grad p j)) * l_JxW p * lmask s src j)).

(** ** The Newton loop, phase_field.cc:337-369 and 412-460 *)
(** l2 norm of the right hand side; the linear solver is an oracle that sees the call number, the stored operator data
    and the right hand side and returns solution_update (an exception NoConvergence is swallowed: the oracle just
    returns whatever the vector holds) *)
Section Newton.
Context (residual : block2 -> block2 * stored) (norm : block2 -> R) (distribute : block2 -> block2)
        (solver : nat -> stored -> block2 -> block2).
Record newton_log := MkNL { nl_norms : list R; nl_solves : nat; nl_converged : bool }.
(** the for loop with [fuel] remaining iterations, [i] the loop counter *)
Fixpoint newton_loop (tol : R) (fuel i : nat) (U : block2) (log : newton_log) : block2 * newton_log :=
  match fuel with
  | O => (U, log)
  | S fuel =>
    let '(rhs, st) := residual U in
    let r := norm rhs in
    if negb (Nat.eqb i 0) && Rltb r (1/1000 * tol)
    then (U, MkNL (nl_norms log ++ [r]) (nl_solves log) true)
    else newton_loop tol fuel (S i) (b_sub U (distribute (solver i st rhs)))
           (MkNL (nl_norms log ++ [r]) (S (nl_solves log)) (nl_converged log))
  end.
(** phase_field.cc:337-369: [None] is the exception of the branch that is not implemented *)
Definition advance_cahn_hilliard (do_newton : bool) (tol : R) (max_it : nat) (U : block2) : option (block2 * newton_log) :=
  if do_newton then Some (newton_loop tol max_it 0 U (MkNL [] 0 false)) else None.
End Newton.

(** ** Values read by the force computation, phase_field_local.cc:72-94: read_dof_values, not the plain variant *)
Definition pf_density (s : lspace) (density density_diff : R) (p : lpoint) (c : lvec) : R :=
  density + density_diff * Rmin 1 (Rmax 0 (5/10 * (lvalue s p (lmask s c) + 1))).
(** phase_field.cc:101-109: initial profile from a signed distance *)
Definition pf_transform (epsilon_used d : R) : R := - tanh (d / epsilon_used).
