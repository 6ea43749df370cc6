(** * Model of reinitialization, normals and curvature of the matrix-based level set solver
    source/level_set_okz_matrix.cc:613-718 [compute_normal], 720-838 [compute_curvature], 909-1112 [reinitialize; order of the steps and
    stale normals: Model_Reinit.v], source/two_phase_base.cc:282-291 [epsilon_used].

    Simplifications: exact real arithmetic, one process; the conjugate gradient method returns an exact solution; constraints are
    homogeneous lines, the diagonal entries of constrained rows are arbitrary numbers.  Division of a zero vector by its norm (NaN in the
    code) makes the whole system undefined ([None]). *)
From Coq Require Import Reals List Bool Arith.
From Verif Require Import SumR Model_BoundaryValues Model_LevelSetOps Model_Curvature.
Import ListNotations.
Open Scope R_scope.

(** a quadrature point of a cell: JxW, shape_value(i, q), shape_grad(i, q) *)
Record epoint := MkEP { e_JxW : R; e_shape : nat -> R; e_grad : nat -> nat -> R }.
(** a cell: dofs_per_cell, get_dof_indices, points, diameter(), and whether FEValues reports a translation of the previous cell *)
Record ecell := MkEC { e_n : nat; e_dof : nat -> nat; e_pts : list epoint; e_diameter : R; e_similar : bool }.
Definition edot (dim : nat) (a b : nat -> R) : R := sumn dim (fun d => a d * b d).
(** get_function_values, get_function_gradients; lines 763-772 and 990-1000: values of the normal field *)
Definition e_value (c : ecell) (p : epoint) (U : nat -> R) : R := sumn (e_n c) (fun i => e_shape p i * U (e_dof c i)).
Definition e_gradient (c : ecell) (p : epoint) (U : nat -> R) (d : nat) : R := sumn (e_n c) (fun i => e_grad p i d * U (e_dof c i)).
Definition e_normal (c : ecell) (p : epoint) (N : nat -> nat -> R) (d : nat) : R := e_value c p (fun g => N g d).

(** ** distribute_local_to_global and the assembled system *)
Notation local_matrix := (nat -> nat -> R).
Notation local_vector := (nat -> R).
(** row g of the assembled matrix times x *)
Definition matrix_row (con : lines) (diag : nat -> R) (sys : list (ecell * local_matrix)) (x : nat -> R) (g : nat) : R :=
  (if is_free con g then 0 else diag g * x g) +
  suml sys (fun cA => sumn (e_n (fst cA)) (fun a => suml (expand con (e_dof (fst cA) a)) (fun rw => if Nat.eqb (fst rw) g then
    snd rw * sumn (e_n (fst cA)) (fun b => snd cA a b * suml (expand con (e_dof (fst cA) b)) (fun cw => snd cw * x (fst cw))) else 0))).
Definition vector_row (con : lines) (sys : list (ecell * local_vector)) (g : nat) : R :=
  suml sys (fun cb => sumn (e_n (fst cb)) (fun a => suml (expand con (e_dof (fst cb) a)) (fun rw => if Nat.eqb (fst rw) g then snd rw * snd cb a else 0))).

(** ** Projections: lines 658-695 and 756-800 *)
Definition projection_matrix (dim : nat) (damping : R) (c : ecell) : local_matrix := fun i j =>
  suml (e_pts c) (fun p => (e_shape p i * e_shape p j + edot dim (e_grad p i) (e_grad p j) * damping) * e_JxW p).
(** lines 664-665, 761-762: the matrix of the previous cell is kept for translated cells; [prev] is zero at the beginning *)
Fixpoint projection_cells (dim : nat) (damping : R) (prev : local_matrix) (cells : list ecell) : list (ecell * local_matrix) :=
  match cells with
  | [] => []
  | c :: rest => let A := if e_similar c then prev else projection_matrix dim damping c in (c, A) :: projection_cells dim damping A rest
  end.
(** lines 646-649 and 750-753 *)
Definition normal_damping_m (anisotropic : bool) (epsilon_used epsilon : R) : R :=
  (if anisotropic then 16 else 4) * ((epsilon_used / epsilon) * (epsilon_used / epsilon)).
Definition curvature_damping_m (anisotropic : bool) (epsilon_used epsilon : R) : R :=
  (if anisotropic then 4 else 1 / 2) * ((epsilon_used / epsilon) * (epsilon_used / epsilon)).
(** lines 684-686: component d *)
Definition normal_vector (c : ecell) (U : nat -> R) (d : nat) : local_vector := fun i =>
  suml (e_pts c) (fun p => e_shape p i * e_gradient c p U d * e_JxW p).
(** lines 777-781 *)
Definition curvature_normal (dim : nat) (v : nat -> R) (d : nat) : R :=
  if Rlt_dec (1 / 100000000) (sqrt (edot dim v v)) then v d / sqrt (edot dim v v) else v d * 100000000.
(** lines 795-798 *)
Definition curvature_vector (dim : nat) (c : ecell) (N : nat -> nat -> R) : local_vector := fun i =>
  suml (e_pts c) (fun p => edot dim (e_grad p i) (curvature_normal dim (e_normal c p N)) * e_JxW p).
(** the systems that are solved: matrix, right hand side *)
Definition normal_systems (dim : nat) (damping : R) (cells : list ecell) (U : nat -> R) (d : nat) :=
  (projection_cells dim damping (fun _ _ => 0) cells, map (fun c => (c, normal_vector c U d)) cells).
Definition curvature_systems (dim : nat) (damping : R) (cells : list ecell) (N : nat -> nat -> R) :=
  (projection_cells dim damping (fun _ _ => 0) cells, map (fun c => (c, curvature_vector dim c N)) cells).
(** cg.solve and constraints.distribute, lines 704-712, 807-811 *)
Definition solves_system (n : nat) (con : lines) (diag : nat -> R) (sys : list (ecell * local_matrix) * list (ecell * local_vector)) (x : nat -> R) : Prop :=
  forall g, (g < n)%nat -> matrix_row con diag (fst sys) x g = vector_row con (snd sys) g.

(** ** Reinitialization, lines 931-1094 *)
(** two_phase_base.cc:290-291; [h] is the diameter computed by compute_cell_diameters *)
Definition epsilon_used_of (epsilon subdivisions h : R) : R := epsilon / subdivisions * h.
(** lines 931-932 *)
Definition dtau_m (epsilon_used epsilon step_size : R) : R := 3 / 10 * Rmin (epsilon_used / epsilon) step_size.
(** lines 977-978 *)
Definition diffusion_m (dim : nat) (epsilon_used : R) (c : ecell) : R := Rmax epsilon_used (e_diameter c / sqrt (INR dim)).
(** lines 987, 1002-1006 *)
Definition disable_convection (diffuse_only : bool) (U : nat -> R) (c : ecell) : bool :=
  if diffuse_only then false
  else if Rlt_dec (suml (e_pts c) (fun p => Rabs (e_value c p U * e_value c p U - 1))) (1 / 10000000000) then true else false.
(** lines 1016-1019: [None] if the norm is zero *)
Definition unit_normal (dim : nat) (v : nat -> R) : option (nat -> R) :=
  if Req_EM_T (edot dim v v) 0 then None else Some (fun d => v d / sqrt (edot dim v v)).
(** lines 1031-1048 (n is the unit normal) and 1051-1064: entry of the matrix and of the right hand side at a point *)
Definition compress_entry (dim : nat) (dtau D : R) (n : nat -> R) (p : epoint) (i j : nat) : R :=
  (e_shape p i / dtau * e_shape p j + edot dim n (e_grad p i) * D * edot dim n (e_grad p j)) * e_JxW p.
Definition compress_rhs (dim : nat) (D : R) (n : nat -> R) (c : ecell) (U : nat -> R) (p : epoint) (i : nat) : R :=
  edot dim n (e_grad p i) * (1 / 2 * (1 - e_value c p U * e_value c p U) - D * edot dim n (e_gradient c p U)) * e_JxW p.
Definition diffuse_entry (dim : nat) (dtau D : R) (p : epoint) (i j : nat) : R :=
  (e_shape p i / dtau * e_shape p j + D * edot dim (e_grad p i) (e_grad p j)) * e_JxW p.
Definition diffuse_rhs (dim : nat) (D : R) (c : ecell) (U : nat -> R) (p : epoint) (i : nat) : R :=
  - (edot dim (e_grad p i) (e_gradient c p U) * D * e_JxW p).
Fixpoint all_some {A B} (f : A -> option B) (l : list A) : option (list (A * B)) :=
  match l with
  | [] => Some []
  | x :: r => match f x, all_some f r with Some y, Some t => Some ((x, y) :: t) | _, _ => None end
  end.
(** lines 969-1076 for one cell *)
Definition reinit_cell (dim : nat) (epsilon_used dtau : R) (diffuse_only : bool) (U : nat -> R) (N : nat -> nat -> R) (c : ecell)
    : option (local_matrix * local_vector) :=
  let D := diffusion_m dim epsilon_used c in
  if diffuse_only || disable_convection diffuse_only U c
  then Some (fun i j => suml (e_pts c) (fun p => diffuse_entry dim dtau D p i j), fun i => suml (e_pts c) (fun p => diffuse_rhs dim D c U p i))
  else match all_some (fun p => unit_normal dim (e_normal c p N)) (e_pts c) with
       | None => None
       | Some pn => Some (fun i j => suml pn (fun x => compress_entry dim dtau D (snd x) (fst x) i j),
                          fun i => suml pn (fun x => compress_rhs dim D (snd x) c U (fst x) i))
       end.
(** one step: system, solution, new level set *)
Definition reinit_systems (dim : nat) (epsilon_used dtau : R) (diffuse_only : bool) (cells : list ecell) (U : nat -> R) (N : nat -> nat -> R) :=
  match all_some (reinit_cell dim epsilon_used dtau diffuse_only U N) cells with
  | None => None
  | Some l => Some (map (fun x => (fst x, fst (snd x))) l, map (fun x => (fst x, snd (snd x))) l)
  end.
(** lines 1088, 1096: constraints.distribute(increment); solution += increment *)
Definition reinit_result (con : lines) (x U : nat -> R) : nat -> R := fun g => U g + distribute con x g.
(** lines 809-835: constraints.distribute, then the pointwise correction (no distribute afterwards) *)
Definition curvature_result (dim : nat) (con : lines) (correction : bool) (epsilon_used : R) (c x : nat -> R) : nat -> R := fun g =>
  if correction then Model_LevelSetOps.correct_curvature dim epsilon_used (c g) (distribute con x g) else distribute con x g.
