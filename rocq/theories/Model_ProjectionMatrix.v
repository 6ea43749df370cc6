(** * Model of the matrices of the level set projections
    source/level_set_okz_preconditioner.cc:58-184 (initialize_projection_matrix) and
    include/adaflo/level_set_okz_preconditioner.h:31-77 (initialize_mass_matrix_diagonal).

    Simplifications: exact real arithmetic; one process, no vectorization over cells; quadrature points, shape functions and
    constraints are inputs.  AffineConstraints::distribute_local_to_global of deal.II is modelled by resolving every constrained
    unknown into its masters and by adding the absolute value of the local diagonal for constrained unknowns; TrilinosWrappers
    throws an exception for a nonzero entry outside of the sparsity pattern and skips zeros. *)
From Coq Require Import Reals List Bool Arith.
From Verif Require Import SumR.
Import ListNotations.
Open Scope R_scope.

(** a quadrature point of a cell *)
Record mpt := MkMpt { m_JxW : R; m_shape : nat -> R; m_grad : nat -> nat -> R }.
(** a cell: number of shape functions, global numbers, points, cell_diameters[cell] *)
Record mcell := MkMcell { mc_n : nat; mc_dof : nat -> nat; mc_pts : list mpt; mc_diameter : R }.
(** constraints: None for a free unknown, otherwise the masters and weights (no masters: homogeneous Dirichlet) *)
Definition constraints := nat -> option (list (nat * R)).
Definition expand (con : constraints) (h : nat) : list (nat * R) := match con h with None => [(h, 1)] | Some l => l end.

(** lines 131-146; [min_diameter] = epsilon_used / epsilon *)
Definition damping (min_diameter degree : R) (c : mcell) : R :=
  4 * (Rmax min_diameter (mc_diameter c / degree) * Rmax min_diameter (mc_diameter c / degree)).
(** evaluate: values and gradients of a coefficient vector *)
Definition m_value (c : mcell) (p : mpt) (u : nat -> R) : R := sumn (mc_n c) (fun k => u k * m_shape p k).
Definition m_gradient (c : mcell) (p : mpt) (u : nat -> R) (d : nat) : R := sumn (mc_n c) (fun k => u k * m_grad p k d).
(** submit and integrate, lines 154-159; also the operator of compute_normal_vmult (level_set_okz_compute_normal.cc:96-117) on one cell *)
Definition cell_apply (dim : nat) (mind deg : R) (c : mcell) (u : nat -> R) (j : nat) : R :=
  suml (mc_pts c) (fun p => m_JxW p * (m_value c p u * m_shape p j + sumn dim (fun d => m_gradient c p u d * damping mind deg c * m_grad p j d))).
(** lines 148-165: column i of the cell matrix from the unit vector *)
Definition unit_vec (i : nat) : nat -> R := fun k => if Nat.eqb k i then 1 else 0.
Definition cell_matrix (dim : nat) (mind deg : R) (c : mcell) (j i : nat) : R := cell_apply dim mind deg c (unit_vec i) j.

(** lines 80-95: the mask, from the shape values of the first cell (they are the same on all cells); [ref]: its points *)
Definition Rneqb (x y : R) : bool := if Req_EM_T x y then false else true.
Definition dof_mask (ref : list mpt) (i j : nat) : bool := Rneqb (suml ref (fun p => m_shape p i * m_shape p j)) 0.

(** the entries one cell adds: (row, column, value) *)
Definition local_entries (con : constraints) (c : mcell) (A : nat -> nat -> R) : list (nat * nat * R) :=
  flat_map (fun a => flat_map (fun b =>
      flat_map (fun rw => map (fun cw => (fst rw, fst cw, snd rw * A a b * snd cw)) (expand con (mc_dof c b))) (expand con (mc_dof c a)))
    (seq 0 (mc_n c))) (seq 0 (mc_n c)).
Definition constrained_diagonal (con : constraints) (c : mcell) (A : nat -> nat -> R) : list (nat * nat * R) :=
  flat_map (fun a => match con (mc_dof c a) with Some _ => [(mc_dof c a, mc_dof c a, Rabs (A a a))] | None => [] end) (seq 0 (mc_n c)).
(** lines 104-115: add_entries_local_to_global with the mask, keep_constrained_entries = false *)
Definition pattern (con : constraints) (mask : nat -> nat -> bool) (c : mcell) : list (nat * nat) :=
  flat_map (fun a => flat_map (fun b => if mask a b then
      flat_map (fun rw => map (fun cw => (fst rw, fst cw)) (expand con (mc_dof c b))) (expand con (mc_dof c a)) else [])
    (seq 0 (mc_n c))) (seq 0 (mc_n c))
  ++ flat_map (fun a => match con (mc_dof c a) with Some _ => [(mc_dof c a, mc_dof c a)] | None => [] end) (seq 0 (mc_n c)).
Definition in_pattern (pat : list (nat * nat)) (r c : nat) : bool := existsb (fun rc => Nat.eqb (fst rc) r && Nat.eqb (snd rc) c) pat.
Definition all_entries (dim : nat) (mind deg : R) (con : constraints) (mesh : list mcell) : list (nat * nat * R) :=
  flat_map (fun c => local_entries con c (cell_matrix dim mind deg c) ++ constrained_diagonal con c (cell_matrix dim mind deg c)) mesh.
(** lines 97-180; [None]: exception *)
Definition projection_matrix (dim : nat) (mind deg : R) (con : constraints) (ref : list mpt) (mesh : list mcell) : option (nat -> nat -> R) :=
  let pat := flat_map (pattern con (dof_mask ref)) mesh in
  let e := all_entries dim mind deg con mesh in
  if forallb (fun t => negb (Rneqb (snd t) 0) || in_pattern pat (fst (fst t)) (snd (fst t))) e
  then Some (fun r c => suml e (fun t => if Nat.eqb (fst (fst t)) r && Nat.eqb (snd (fst t)) c then snd t else 0)) else None.

(** compute_normal_vmult on the free unknowns, level_set_okz_compute_normal.cc:82-117,160-184: read_dof_values resolves the constraints, the cell
    operator is applied, distribute_local_to_global uses the same weights *)
Definition read_dofs (con : constraints) (c : mcell) (src : nat -> R) (b : nat) : R := suml (expand con (mc_dof c b)) (fun mw => snd mw * src (fst mw)).
Definition matrix_free_vmult (dim : nat) (mind deg : R) (con : constraints) (mesh : list mcell) (src : nat -> R) (g : nat) : R :=
  suml mesh (fun c => sumn (mc_n c) (fun a =>
    suml (expand con (mc_dof c a)) (fun mw => if Nat.eqb (fst mw) g then snd mw * cell_apply dim mind deg c (read_dofs con c src) a else 0))).

(** ** Diagonal of the mass matrix, level_set_okz_preconditioner.h:50-76 *)
Definition local_mass_diagonal (c : mcell) (i : nat) : R := suml (mc_pts c) (fun p => m_shape p i * m_shape p i * m_JxW p).
Definition mass_diagonal (con : constraints) (mesh : list mcell) (g : nat) : R :=
  suml mesh (fun c => sumn (mc_n c) (fun a =>
    suml (expand con (mc_dof c a)) (fun mw => if Nat.eqb (fst mw) g then snd mw * local_mass_diagonal c a else 0))).
