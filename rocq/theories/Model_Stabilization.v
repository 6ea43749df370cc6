(** * Model of the stabilization and of the linear solver of the level set advection
    source/level_set_okz_advance_concentration.cc: 344-371 (artificial viscosity), 70-100 (diameter_on_coarse_grid),
    508-656 (advance_concentration: boundary values, solver with fallback, update).

    Simplifications: the finite element evaluation is an input (values and gradients at the quadrature points); one lane
    of the vectorized arrays; the Krylov solvers are arbitrary functions of the start vector that report their last
    iterate, of which only the stopping rule of deal.II's ReductionControl is used. *)
From Coq Require Import Reals List Bool ZArith QArith.
From Coq Require Import SpecFloat.
From Verif Require Import Num.
Import ListNotations.

(** ** Artificial viscosity *)
Section Viscosity.
Context {N : Num}.
(** std::sqrt, std::min and std::max of VectorizedArray (see [packed_min] below) *)
Variable nsqrt : N -> N.
Variables vmin vmax : N -> N -> N.

(** values at one quadrature point: level set and its gradient, velocity, at the two old time levels *)
Record vpoint := MkVP { vp_ls_old : N; vp_ls_old_old : N; vp_grad_old : list N; vp_grad_old_old : list N;
                        vp_u_old : list N; vp_u_old_old : list N }.
(** Tensor::operator+ and the contraction of two rank-1 tensors *)
Fixpoint tadd (u v : list N) : list N :=
  match u, v with x :: u, y :: v => nadd x y :: tadd u v | _, _ => [] end.
Fixpoint tdot_from (s : N) (u v : list N) : N :=
  match u, v with x :: u, y :: v => tdot_from (nadd s (nmul x y)) u v | _, _ => s end.
Definition tdot (u v : list N) : N :=
  match u, v with x :: u, y :: v => tdot_from (nmul x y) u v | _, _ => nlit (0#1) end.

(** lines 350-353: u is the sum (not the mean) of the old velocities *)
Definition vp_u (p : vpoint) : list N := tadd (vp_u_old p) (vp_u_old_old p).
(** lines 354-361 *)
Definition vp_residual (old_step_size : N) (p : vpoint) : N :=
  nabs (nadd (ndiv (nsub (vp_ls_old p) (vp_ls_old_old p)) old_step_size)
             (nmul (tdot (vp_u p) (tadd (vp_grad_old p) (vp_grad_old_old p))) (nlit (25#100)))).
(** lines 346-364: the loop over the points, state (max_residual, max_velocity) *)
Definition scan_points (old_step_size : N) (pts : list vpoint) : N * N :=
  fold_left (fun s p => (vmax (vp_residual old_step_size p) (fst s), vmax (nsqrt (tdot (vp_u p) (vp_u p))) (snd s)))
            pts (nlit (0#1), nlit (0#1)).
(** lines 365-371 *)
Definition artificial_viscosity (old_step_size global_max_velocity global_omega_diameter cell_diameter : N)
    (pts : list vpoint) : N :=
  let '(max_residual, max_velocity) := scan_points old_step_size pts in
  let global_scaling := nmul (nmul global_max_velocity (nlit (2#1))) global_omega_diameter in
  nmul (nmul (nmul (nlit (3#100)) max_velocity) cell_diameter)
       (vmin (nlit (1#1)) (ndiv (nmul (nlit (1#1)) max_residual) global_scaling)).
End Viscosity.
Arguments vpoint : clear implicits.

(** deal.II base/vectorization.h: with SSE2, AVX or AVX-512 std::min(x, y) is _mm_min_pd(x, y), whose result is y unless
    x < y holds, and std::max(x, y) is _mm_max_pd(x, y), y unless x > y; without SIMD (width 1) they are the functions of
    the C++ library ([nmin], [nmax] of Num.v).  They differ only if an argument is not a number. *)
Definition packed_min {N : Num} (x y : N) : N := if nltb x y then x else y.
Definition packed_max {N : Num} (x y : N) : N := if nltb y x then x else y.
Definition Fsqrt : FNum -> FNum := SFsqrt 53 1024.

(** ** diameter_on_coarse_grid, lines 70-100 *)
Open Scope R_scope.
Definition point := list R.
Fixpoint norm_square (p q : point) : R :=
  match p, q with x :: p, y :: q => (x - y) * (x - y) + norm_square p q | _, _ => 0 end.
(** lines 76-80: the flags; [faces]: for every face at the boundary of a level 0 cell its vertex indices *)
Definition set_flag (flags : list bool) (i : nat) : list bool :=
  map (fun k => if Nat.eqb k i then true else nth k flags false) (seq 0 (length flags)).
Definition boundary_vertices (n_vertices : nat) (boundary_faces : list (list nat)) : list bool :=
  fold_left (fun f face => fold_left set_flag face f) boundary_faces (repeat false n_vertices).
(** lines 84-97: the double loop over i < j *)
Definition inner_loop (vertices : list point) (flags : list bool) (i : nat) (m : R) : R :=
  fold_left (fun m j =>
      if nth i flags false && nth j flags false && Rltb m (norm_square (nth i vertices []) (nth j vertices []))
      then norm_square (nth i vertices []) (nth j vertices []) else m)
    (seq (i + 1) (length flags - (i + 1))) m.
Definition max_distance_sqr (vertices : list point) (flags : list bool) : R :=
  fold_left (fun m i => inner_loop vertices flags i m) (seq 0 (length flags)) 0.
Definition diameter_on_coarse_grid (vertices : list point) (boundary_faces : list (list nat)) : R :=
  sqrt (max_distance_sqr vertices (boundary_vertices (length vertices) boundary_faces)).

(** ** The linear solve with fallback, lines 529-545 and 623-655 *)
Section Solve.
Context {V : Type}.
(** deal.II ReductionControl::check: success if the residual is at most the absolute tolerance or at most
    [reduce] times the residual of the start vector *)
Definition reduction_ok (tol reduce initial res : R) : bool :=
  (if Rle_dec res tol then true else false) || (if Rle_dec res (reduce * initial) then true else false).
Record krylov := MkKrylov { k_last : V; k_steps : nat }.
Record system := MkSystem {
  residual_norm : V -> R;        (* norm of rhs - A x *)
  zero_vector : V; add : V -> V -> V; distribute : V -> V;
  bicgstab : V -> krylov;        (* last iterate with at most 30 steps *)
  gmres : V -> krylov }.         (* last iterate with at most 3000 steps *)
Inductive outcome := Solved (increment : V) (n_iterations : nat) (printed_initial_residual : R) | Failure.
Definition solve (tol_nl : R) (s : system) : outcome :=
  let tol := 5/100 * tol_nl in
  let b := bicgstab s (zero_vector s) in
  if reduction_ok tol (1/10^8) (residual_norm s (zero_vector s)) (residual_norm s (k_last b))
  then Solved (k_last b) (k_steps b) (residual_norm s (zero_vector s))
  else
    (* the increment still holds the last iterate of BiCGStab *)
    let g := gmres s (k_last b) in
    if reduction_ok tol (1/10^8) (residual_norm s (k_last b)) (residual_norm s (k_last g))
    then Solved (k_last g) (30 + k_steps g) 0
    else Failure.
(** lines 511-512, 529-545, 652-655: number of next() calls on the clock of the advection, and the solution;
    [impose] writes the boundary values into the start value *)
Record adv_state := MkAdv { adv_steps : nat; adv_solution : V }.
Definition advance_concentration (tol_nl : R) (impose : V -> V) (s : V -> system) (st : adv_state) : adv_state * bool :=
  let x := impose (adv_solution st) in
  match solve tol_nl (s x) with
  | Solved inc _ _ => (MkAdv (S (adv_steps st)) (add (s x) x (distribute (s x) inc)), true)
  | Failure => (MkAdv (S (adv_steps st)) x, false)
  end.
End Solve.
Arguments krylov : clear implicits.
Arguments system : clear implicits.
Arguments outcome : clear implicits.
Arguments adv_state : clear implicits.
