(** * Model of the matrix-free Navier-Stokes operator
    [adaflo::NavierStokesMatrix] (source/navier_stokes_matrix.cc) in exact arithmetic.

    Simplifications: reals instead of (vectorized) doubles; one list of quadrature points of all cells
    instead of cell batches (the loops over cells and points only add up contributions); homogeneous
    Dirichlet constraints without hanging nodes; release mode. *)
From Coq Require Import Reals List Bool.
From Verif Require Import SumR Model_Parameters.
Import ListNotations.
Open Scope R_scope.

(** vectors and second order tensors at a point; indices below [dim] are meaningful *)
Definition vec := nat -> R.
Definition ten := nat -> nat -> R.
Definition trace (dim : nat) (g : ten) : R := sumn dim (fun d => g d d).

(** parameters, clock values and finite element sizes read by local_operation (lines 620-653) *)
Record setting := MkSetting {
  dim : nat; n_u : nat; n_p : nat;
  constrained_u : nat -> bool; constrained_p : nat -> bool;
  s_type : physical_type; s_lin : linearization;
  beta : R; s_weight : R; s_weight_old : R; s_weight_old_old : R; s_tau1 : R;
  extrapol_old : R; extrapol_old_old : R; tau_grad_div : R }.

(** a quadrature point: JxW, velocity and pressure shape functions (value, gradient), coefficients, and the
    velocity of the two old time levels *)
Record qpoint := MkPoint {
  JxW : R; phi : nat -> vec; dphi : nat -> ten; psi : nat -> R;
  rho : R; mu : R; damping : R;
  old_value : vec; old_gradient : ten; old_old_value : vec; old_old_gradient : ten }.

(** linearized_velocities[q]: .first and .second *)
Definition stored := (vec * ten)%type.

(** assignment to .second[0][0] *)
Definition set_00 (t : ten) (x : R) : ten := fun d e => if Nat.eqb d 0 && Nat.eqb e 0 then x else t d e.

Definition is_stokes_type (t : physical_type) := match t with stokes => true | _ => false end.
Definition is_transient (t : physical_type) := match t with incompressible => true | _ => false end.
Definition is_stationary_type (t : physical_type) := match t with incompressible_stationary => true | _ => false end.
Definition is_newton (l : linearization) := match l with coupled_implicit_newton => true | _ => false end.
Definition is_explicit (l : linearization) := match l with coupled_velocity_explicit => true | _ => false end.
Definition is_proj (l : linearization) := match l with projection => true | _ => false end.
(** lines 644-647 *)
Definition need_extrapolated (l : linearization) :=
  match l with projection | coupled_velocity_semi_implicit | coupled_velocity_explicit => true | _ => false end.

(** lines 621-623 *)
Definition time_step_weight (s : setting) : R := if is_transient (s_type s) then s_weight s else 0.
(** TimeStepping::extrapolate *)
Definition extrapol (s : setting) (old old_old : R) : R := old * extrapol_old s + old_old * extrapol_old_old s.

(** what is handed to submit_value / submit_gradient / pressure.submit_value; [o_value] is integrated only if
    the type is not stokes (lines 897-900), [o_pressure] only if not projection (902-907) *)
Record point_out := MkOut { o_value : vec; o_gradient : ten; o_pressure : R }.

(** lines 840-892: viscous term, grad-div and pressure; for dim <= 3 the switch symmetrizes all off-diagonal
    entries; [with_p] = not vmult_velocity *)
Definition stress (s : setting) (q : qpoint) (with_p : bool) (g : ten) (p : R) : ten := fun d e =>
  let tmu := mu q * s_tau1 s in
  if Nat.eqb d e
  then 2 * tmu * g d d + tau_grad_div s * trace (dim s) g - (if with_p then p else 0)
  else tmu * (g d e + g e d).

(** lines 704-838, LocalOps == residual; also returns the new content of linearized_velocities[q] *)
Definition residual_point (s : setting) (q : qpoint) (u : vec) (g : ten) (p : R) (l : stored) : point_out * stored :=
  let divergence := trace (dim s) g in
  let conv0 : vec := fun d =>
    u d * time_step_weight s +
    (if is_stationary_type (s_type s) then 0
     else old_value q d * s_weight_old s + old_old_value q d * s_weight_old_old s) in
  let old_grad : ten := fun d e => extrapol s (old_gradient q d e) (old_old_gradient q d e) in
  let extrapol_divergence := trace (dim s) old_grad in
  let old_val : vec := fun d => extrapol s (old_value q d) (old_old_value q d) in
  let '(conv, l') :=
    if need_extrapolated (s_lin s) then
      if is_explicit (s_lin s) then
        ((fun d => conv0 d + s_tau1 s *
            (beta s * extrapol_divergence * old_val d + sumn (dim s) (fun e => old_val e * old_grad d e))) : vec, l)
      else
        ((fun d => conv0 d + s_tau1 s *
            (beta s * extrapol_divergence * u d + sumn (dim s) (fun e => old_val e * g d e))) : vec,
         (old_val, set_00 (snd l) extrapol_divergence))
    else
      ((fun d => conv0 d + s_tau1 s *
          (beta s * divergence * u d + sumn (dim s) (fun e => u e * g d e))) : vec,
       (u, if is_newton (s_lin s) then g else set_00 (snd l) divergence)) in
  if is_stokes_type (s_type s)
  then (MkOut (fun _ => 0) (stress s q true g p) (- divergence), l)
  else (MkOut (fun d => conv d * rho q - damping q * u d) (stress s q true g p) (- divergence), l').

(** lines 704-838, LocalOps == vmult ([with_p] = true) or vmult_velocity ([with_p] = false) *)
Definition vmult_point (s : setting) (q : qpoint) (with_p : bool) (l : stored) (u : vec) (g : ten) (p : R) : point_out :=
  let divergence := trace (dim s) g in
  let conv0 : vec := fun d => u d * time_step_weight s in
  let conv : vec :=
    if is_newton (s_lin s) then
      fun d => conv0 d + s_tau1 s *
        (beta s * divergence * fst l d + beta s * trace (dim s) (snd l) * u d +
         sumn (dim s) (fun e => fst l e * g d e + u e * snd l d e))
    else if negb (is_explicit (s_lin s)) then
      fun d => conv0 d + s_tau1 s *
        (beta s * snd l 0%nat 0%nat * u d + sumn (dim s) (fun e => fst l e * g d e))
    else conv0 in
  MkOut (if is_stokes_type (s_type s) then (fun _ => 0) else fun d => conv d * rho q - damping q * u d)
        (stress s q with_p g p) (- divergence).

(** FEEvaluation: evaluation of a dof vector at a point, and the integrals tested by shape function [i] *)
Definition eval_value (s : setting) (q : qpoint) (U : vec) : vec := fun d => sumn (n_u s) (fun j => U j * phi q j d).
Definition eval_gradient (s : setting) (q : qpoint) (U : vec) : ten := fun d e => sumn (n_u s) (fun j => U j * dphi q j d e).
Definition eval_pressure (s : setting) (q : qpoint) (P : vec) : R := sumn (n_p s) (fun j => P j * psi q j).
Definition test_velocity (s : setting) (q : qpoint) (o : point_out) (i : nat) : R :=
  JxW q * (sumn (dim s) (fun d => o_value o d * phi q i d)
           + sumn (dim s) (fun d => sumn (dim s) (fun e => o_gradient o d e * dphi q i d e))).
Definition test_pressure (s : setting) (q : qpoint) (o : point_out) (i : nat) : R :=
  if is_proj (s_lin s) then 0 else JxW q * (o_pressure o * psi q i).

(** read_dof_values: constrained entries are read as zero; read_dof_values_plain reads everything;
    distribute_local_to_global drops constrained rows *)
Definition masked (con : nat -> bool) (U : vec) : vec := fun j => if con j then 0 else U j.

(** lines 191-205: modes are (weights, mode, inverse average weight); [None] = reinit(0) *)
Record mode := MkMode { mode_weights : vec; mode_vector : vec; mode_inverse : R }.
Definition dot (n : nat) (a b : vec) : R := sumn n (fun i => a i * b i).
Definition project_mode (n : nat) (m : option mode) (v : vec) : vec :=
  match m with
  | None => v
  | Some m => let product := dot n (mode_weights m) v in
              fun i => v i + (- product * mode_inverse m) * mode_vector m i
  end.
Definition average_projection (s : setting) (m0 m1 : option mode) (v : vec) : vec :=
  if negb (is_proj (s_lin s)) && negb (is_stationary_type (s_type s))
  then project_mode (n_p s) m1 (project_mode (n_p s) m0 v) else v.

(** lines 138-167: construction of a mode from the diagonal pressure mass weights, the flags of
    extract_constant_modes and the constraints *)
Definition build_mode (n : nat) (pres_mass : vec) (constant_mode : nat -> bool) (con : nat -> bool) : mode :=
  let modes : vec := fun i => if con i then 0 else if constant_mode i then 1 else 0 in
  let weights : vec := fun i => if constant_mode i then pres_mass i else 0 in
  MkMode weights modes (1 / dot n modes weights).

(** navier_stokes.cc:782-786 with lines 266-293 here: system_rhs = const_rhs; residual; projection.
    [pts]: the points with the content of linearized_velocities *)
Definition residual (s : setting) (m0 m1 : option mode) (pts : list (qpoint * stored))
    (const_u const_p user_u user_p U P : vec) : (vec * vec) * list (qpoint * stored) :=
  let out := map (fun ql => (fst ql, residual_point s (fst ql) (eval_value s (fst ql) U) (eval_gradient s (fst ql) U)
                                       (eval_pressure s (fst ql) P) (snd ql))) pts in
  let ru : vec := fun i => - (const_u i + if constrained_u s i then 0 else suml out (fun o => test_velocity s (fst o) (fst (snd o)) i)) + user_u i in
  let rp : vec := fun i => - (const_p i + if constrained_p s i then 0 else suml out (fun o => test_pressure s (fst o) (fst (snd o)) i)) + user_p i in
  ((ru, average_projection s m0 m1 rp), map (fun o => (fst o, snd (snd o))) out).

(** lines 221-262 [vmult] *)
Definition vmult (s : setting) (m0 m1 : option mode) (pts : list (qpoint * stored)) (U P : vec) : vec * vec :=
  let U' := masked (constrained_u s) U in let P' := masked (constrained_p s) P in
  let out := map (fun ql => (fst ql, vmult_point s (fst ql) true (snd ql) (eval_value s (fst ql) U') (eval_gradient s (fst ql) U')
                                       (eval_pressure s (fst ql) P'))) pts in
  let du : vec := fun i => if constrained_u s i then U i else suml out (fun o => test_velocity s (fst o) (snd o) i) in
  let dp : vec := fun i => if constrained_p s i then - P i else suml out (fun o => test_pressure s (fst o) (snd o) i) in
  (du, average_projection s m0 m1 dp).

(** lines 337-382 [velocity_vmult] without the exchange of coefficient fields (modelled in
    Model_MatrixState.v) *)
Definition velocity_vmult (s : setting) (pts : list (qpoint * stored)) (U : vec) : vec :=
  let U' := masked (constrained_u s) U in
  fun i => if constrained_u s i then U i
           else suml pts (fun ql => test_velocity s (fst ql)
                  (vmult_point s (fst ql) false (snd ql) (eval_value s (fst ql) U') (eval_gradient s (fst ql) U') 0) i).
