(** * Model of the matrix behind the Cahn-Hilliard preconditioner
    source/phase_field.cc:92-98 (distribute_dofs), 239-312 (create_cahn_hilliard_preconditioner), 337-343 (when it is called),
    461-471 (advance_time_step); source/two_phase_base.cc:120-197 (setup_problem), 396-441 (refine_grid), 446-450 (init_time_advance).

    Simplifications: exact real arithmetic, one process.  Numbering, constraints, shape functions and weights are inputs of each mesh.
    AffineConstraints::distribute_local_to_global is modelled as in Model_GlobalMatrix; in particular an entry outside of the sparsity
    pattern ends in an exception ([None]; deal.II checks this in debug mode and loses the entry otherwise).  The algebraic multigrid
    preconditioner is a function of the matrix.  DoFTools::make_sparsity_pattern is called without constraints: it makes room for
    all pairs of unknowns of a cell. *)
From Coq Require Import Reals List Bool Arith.
From Verif Require Import Num SumR Model_TimeStepping Model_ProjectionMatrix Model_GlobalMatrix Model_Blocks.
Import ListNotations.
Open Scope R_scope.

(** a cell: unknowns, shape values (i, q), shape gradients (i, q, d), JxW(q) *)
Record chcell := MkChcell { k_n : nat; k_dof : nat -> nat; k_nq : nat; k_val : nat -> nat -> R; k_grad : nat -> nat -> nat -> R; k_JxW : nat -> R }.
(** a mesh with its unknowns: n_dofs, cells, [constraints] (hanging nodes, boundary values), epsilon_used *)
Record chmesh := MkChmesh { me_n : nat; me_cells : list chcell; me_con : constraints; me_eps : R }.
(** surface_tension, diffusion_length *)
Record chmat := MkChmat { cm_sigma : R; cm_length : R; cm_dim : nat }.

(** lines 250-257 *)
Definition ch_pattern (m : chmesh) : list (nat * nat) :=
  flat_map (fun c => list_prod (map (k_dof c) (seq 0 (k_n c))) (map (k_dof c) (seq 0 (k_n c)))) (me_cells m).
(** lines 289-299 *)
Definition ch_cell_matrix (dim : nat) (coefficient : R) (c : chcell) (i j : nat) : R :=
  sumn (k_nq c) (fun q => (k_val c i q * k_val c j q + coefficient * sumn dim (fun d => k_grad c i q d * k_grad c j q d)) * k_JxW c q).
(** lines 300-302 *)
Definition ch_term (dim : nat) (coefficient : R) (c : chcell) : term := MkTerm (k_n c) (k_dof c) (k_n c) (k_dof c) (ch_cell_matrix dim coefficient c) true.

(** what the solver holds: the clock, the mesh, the sparsity pattern with its number of rows (None: cleared), and the matrix the
    preconditioner was computed from *)
Record pf := MkPf { f_clock : clock RNum; f_mesh : chmesh; f_pattern : option (nat * list (nat * nat)); f_matrix : option matrix }.
Definition rows (f : pf) : nat := match f_pattern f with Some p => fst p | None => 0%nat end.
(** lines 239-312; preconditioner_matrix = 0 (line 282) is part of [add_terms] *)
Definition create_preconditioner (p : chmat) (f : pf) : pf :=
  let pat := if Nat.eqb (rows f) 0 then (me_n (f_mesh f), ch_pattern (f_mesh f)) else match f_pattern f with Some q => q | None => (0%nat, []) end in
  let coefficient := ch_coefficient (cm_sigma p) (me_eps (f_mesh f)) (cm_length p) (weight (f_clock f)) in
  MkPf (f_clock f) (f_mesh f) (Some pat)
    (add_terms (snd pat) (me_con (f_mesh f)) (map (ch_term (cm_dim p) coefficient) (me_cells (f_mesh f))) (match f_matrix f with Some M => M | None => fun _ _ => 0 end)).
(** lines 341-343 *)
Definition check_preconditioner (p : chmat) (f : pf) : pf :=
  if weight_has_changed (f_clock f) || negb (Nat.eqb (rows f) (me_n (f_mesh f))) then create_preconditioner p f else f.
(** phase_field.cc:94-98 and the rest of a new mesh: two_phase_base.cc:135-137, 419-420 *)
Definition new_mesh (m : chmesh) (f : pf) : pf := MkPf (f_clock f) m None (f_matrix f).
Definition on_clock (g : clock RNum -> clock RNum) (f : pf) : pf := MkPf (g (f_clock f)) (f_mesh f) (f_pattern f) (f_matrix f).

(** what the user does: set-up, mesh adaptation (to a new mesh, or none), changes of the step size, a time step; [Foreign] is a call
    of init_time_advance (public, also through get_navier_stokes()) that is not part of advance_time_step *)
Inductive event := Setup (m : chmesh) | Refine (m : option chmesh) | SetStep (v : R) | SetDesired (v : R) | SetFinal (v : R) | Step | Foreign.
Definition react (p : chmat) (f : pf) (e : event) : pf :=
  match e with
  | Setup m => new_mesh m (on_clock restart f)
  | Refine (Some m) => new_mesh m f
  | Refine None => f
  | SetStep v => on_clock (fun c => set_time_step c v) f
  | SetDesired v => on_clock (fun c => set_desired_time_step c v) f
  | SetFinal v => on_clock (fun c => set_final_time c v) f
  | Step => check_preconditioner p (on_clock next f)
  | Foreign => on_clock next f
  end.
Definition reacts (p : chmat) (f : pf) (h : list event) : pf := fold_left (react p) h f.
(** the constructor *)
Definition pf_init (c : clock RNum) (m : chmesh) : pf := MkPf c m None None.
