(** * Model of the matrices assembled for the preconditioner
    source/navier_stokes_preconditioner.cc:1718-2365 (local_assemble_preconditioner).

    Simplifications: one cell and one lane; the quadrature points, shape functions and Jacobians are inputs; the interior
    penalty terms of augmented Taylor-Hood elements (lines 2231-2344) are not modelled; FullMatrix::Tmmult is the plain triple loop
    (deal.II calls BLAS for large matrices, which sums in another order); the distribution into the global matrix only adds the
    cell matrices.  The code is generic in the arithmetic. *)
From Coq Require Import List Bool ZArith QArith.
From Verif Require Import Num Model_Parameters.
Import ListNotations.

Section Matrix.
Context {N : Num}.
Local Notation zero := (nlit (n:=N) (0#1)).
(** a loop [sum += f(i)] for i = 0, ..., n-1 *)
Fixpoint nsum_from (acc : N) (l : list N) : N := match l with [] => acc | x :: r => nsum_from (nadd acc x) r end.

(** a quadrature point of the velocity space (one component): lines 1795-1832 *)
Record vpt := MkVpt { v_JxW : N; v_nu : N; v_rho : N; v_damping : N; v_phi : nat -> N; v_grad : nat -> nat -> N;
  v_lin : option ((nat -> N) * (nat -> nat -> N)) }.
(** what is read from the parameters and the clock *)
Record vset := MkVset { v_dim : nat; v_type : physical_type; v_weight : N; v_tau : N; v_tau_grad_div : N }.

Definition weight_nu (s : vset) (q : vpt) : N := nmul (v_JxW q) (nadd (v_tau_grad_div s) (nmul (v_nu q) (v_tau s))).
Definition weight_rho (q : vpt) : N := nmul (v_JxW q) (v_rho q).
Definition weight_damping (q : vpt) : N := nmul (v_JxW q) (v_damping q).
(** lines 1838-1856: velocity_phi_matrix, rows 0..dim of a point *)
Definition phi_matrix (s : vset) (q : vpt) (r i : nat) : N :=
  if Nat.ltb r (v_dim s) then nmul (v_grad q i r) (weight_nu s q) else nmul (v_phi q i) (weight_rho q).
(** lines 1857-1867 *)
Definition time_part (s : vset) (q : vpt) (i : nat) : N :=
  let p := match v_type s with incompressible_stationary => zero | _ => nmul (v_phi q i) (v_weight s) end in
  nsub p (nmul (ndiv (weight_damping q) (weight_rho q)) (v_phi q i)).
(** lines 1869-1873: phi_and_grad after the convective term *)
Definition phi_and_grad (s : vset) (q : vpt) (i : nat) : N :=
  match v_lin q with
  | None => time_part s q i
  | Some l => nsum_from (time_part s q i) (map (fun d => nmul (nmul (v_tau s) (v_grad q i d)) (fst l d)) (seq 0 (v_dim s)))
  end.
(** lines 1842-1889: velocity_phi_and_grad_matrix, column j * dim + d, not scalar_ilu *)
Definition phi_and_grad_matrix (s : vset) (q : vpt) (r j d : nat) : N :=
  if Nat.ltb r (v_dim s) then (if Nat.eqb r d then nadd (v_grad q j r) (v_grad q j r) else v_grad q j r)
  else match v_lin q with
       | None => phi_and_grad s q j
       | Some l => nadd (phi_and_grad s q j) (nmul (nmul (snd l d d) (v_phi q j)) (v_tau s))
       end.
(** scalar_ilu: one column per shape function *)
Definition phi_and_grad_scalar (s : vset) (q : vpt) (r j : nat) : N :=
  if Nat.ltb r (v_dim s) then v_grad q j r else phi_and_grad s q j.
(** lines 1904-1916: Tmmult and the copy into the diagonal blocks *)
Definition rows (s : vset) (pts : list vpt) : list (vpt * nat) := flat_map (fun q => map (fun r => (q, r)) (seq 0 (v_dim s + 1))) pts.
Definition velocity_entry (s : vset) (pts : list vpt) (d i j : nat) : N :=
  nsum_from zero (map (fun qr => nmul (phi_matrix s (fst qr) (snd qr) i) (phi_and_grad_matrix s (fst qr) (snd qr) j d)) (rows s pts)).
Definition scalar_entry (s : vset) (pts : list vpt) (i j : nat) : N :=
  nsum_from zero (map (fun qr => nmul (phi_matrix s (fst qr) (snd qr) i) (phi_and_grad_scalar s (fst qr) (snd qr) j)) (rows s pts)).

(** ** Linear subelements, lines 1941-2056: values and gradients on the unit cell, inverse Jacobian of the subelement, coefficients of
    the first quadrature point of the cell *)
Record lpt := MkLpt { e_JxW : N; e_jac : nat -> nat -> N; e_val : nat -> N; e_unit_grad : nat -> nat -> N }.
Record coeff := MkCoeff { k_nu : N; k_rho : N; k_damping : N; k_lin : option ((nat -> N) * (nat -> nat -> N)) }.
Definition e_grad (dim : nat) (q : lpt) (i e : nat) : N :=
  nsum_from zero (map (fun f => nmul (e_jac q e f) (e_unit_grad q i f)) (seq 0 dim)).
(** lines 1994-2014 *)
Definition data_for_val (s : vset) (k : coeff) (q : lpt) (d i : nat) : N :=
  let w_rho := nmul (e_JxW q) (k_rho k) in let w_damping := nmul (e_JxW q) (k_damping k) in
  let p := match v_type s with incompressible_stationary => zero | _ => nmul (e_val q i) (v_weight s) end in
  let p := nsub p (nmul (ndiv w_damping w_rho) (e_val q i)) in
  let p := match k_lin k with
           | None => p
           | Some l => nadd (nsum_from p (map (fun e => nmul (nmul (v_tau s) (e_grad (v_dim s) q i e)) (fst l e)) (seq 0 (v_dim s))))
                            (nmul (nmul (v_tau s) (e_val q i)) (snd l d d))
           end in
  nmul w_rho p.
(** lines 2016-2031 *)
Definition grad_for_test (s : vset) (k : coeff) (q : lpt) (d i e : nat) : N :=
  let w_nu := nmul (nmul (e_JxW q) (k_nu k)) (v_tau s) in let w_gd := nmul (e_JxW q) (v_tau_grad_div s) in
  let g := nmul (e_grad (v_dim s) q i e) w_nu in
  if Nat.eqb e d then nadd (nadd g (nmul (e_grad (v_dim s) q i d) w_nu)) (nmul (e_grad (v_dim s) q i d) w_gd) else g.
Definition data_for_grad (s : vset) (k : coeff) (q : lpt) (d i e : nat) : N :=
  nsum_from (nmul (e_jac q 0 e) (grad_for_test s k q d i 0)) (map (fun f => nmul (e_jac q f e) (grad_for_test s k q d i f)) (seq 1 (v_dim s - 1))).
(** lines 2036-2050 *)
Definition linear_entry (s : vset) (k : coeff) (pts : list lpt) (d i j : nat) : N :=
  nsum_from zero (flat_map (fun q => nmul (e_val q i) (data_for_val s k q d j)
                           :: map (fun e => nmul (e_unit_grad q i e) (data_for_grad s k q d j e)) (seq 0 (v_dim s))) pts).

(** ** Pressure, lines 2170-2228 *)
(** std::sqrt *)
Variable nsqrt : N -> N.
Record ppt := MkPpt { p_JxW : N; p_rho : N; p_nu : N; p_psi : nat -> N; p_dpsi : nat -> nat -> N }.
(** lines 2186-2204; [variable]: variable coefficients and no projection; [rho_min] = min(density, density + density_diff) *)
Definition p_rho_weight (s : vset) (variable : bool) (rho_min : N) (q : ppt) : N :=
  match v_type s with
  | incompressible_stationary => nlit (1#1)
  | _ => nmul (if variable then p_rho q else rho_min) (v_weight s)
  end.
Definition p_actual_nu (s : vset) (is_projection : bool) (q : ppt) : N :=
  match v_type s with
  | incompressible_stationary => nlit (1#1)
  | _ => if is_projection then nlit (1#1) else nadd (p_nu q) (v_tau_grad_div s)
  end.
(** lines 2205-2217 for a positive weight; the entries of a point with another weight keep the value of the cell before *)
Definition laplace_part (s : vset) (variable : bool) (rho_min : N) (before : nat -> nat -> N) (q : ppt) (i d : nat) : N :=
  if ngtb (p_rho_weight s variable rho_min q) zero
  then nmul (p_dpsi q i d) (nsqrt (ndiv (p_JxW q) (p_rho_weight s variable rho_min q))) else before i d.
Definition mass_part (s : vset) (is_projection : bool) (q : ppt) (i : nat) : N :=
  nmul (nsqrt (ndiv (p_JxW q) (p_actual_nu s is_projection q))) (p_psi q i).
(** lines 2222-2228 and 2350-2352 *)
Definition pressure_entry (s : vset) (variable : bool) (rho_min : N) (pts : list (ppt * (nat -> nat -> N))) (i j : nat) : N :=
  nsum_from zero (flat_map (fun qb => map (fun d => nmul (laplace_part s variable rho_min (snd qb) (fst qb) i d) (laplace_part s variable rho_min (snd qb) (fst qb) j d))
                                          (seq 0 (v_dim s))) pts).
Definition mass_entry (s : vset) (is_projection : bool) (pts : list ppt) (i j : nat) : N :=
  nsum_from zero (map (fun q => nmul (mass_part s is_projection q i) (mass_part s is_projection q j)) pts).
End Matrix.
Arguments vpt : clear implicits. Arguments vset : clear implicits. Arguments lpt : clear implicits. Arguments coeff : clear implicits. Arguments ppt : clear implicits.
