(** * Pressure matrix of the preconditioner for augmented Taylor-Hood elements
    source/navier_stokes_preconditioner.cc:1329-1390 [initialize_matrices: sparsity pattern], 1618-1698 [compute_ip_matrix_q_dg0,
    compute_nitsche_matrix], 2173-2352 [local_assemble_preconditioner, pressure part] and
    include/adaflo/navier_stokes_preconditioner.h:244-275 [set_face_average_density, get_face_average_density].

    The pressure element is FE_Q_DG0: n continuous shape functions and, as the last one, the constant on the cell.  Simplifications: real
    arithmetic; the entries are listed before constraints are resolved (distribute_local_to_global applies the constraints to rows and
    columns of the listed entries); the product of the two factors sqrt(JxW / rho) of the Laplace part is written JxW / rho (their treatment
    is Model_VelocityMatrix.v, lines 86-110); shape functions, quadrature and the geometry are parameters. *)
From Coq Require Import Reals List Arith Bool.
From Verif Require Import SumR.
Import ListNotations.
Open Scope R_scope.

(** parameters.density, density_diff, linearization == projection, incompressible_stationary, use_variable_coefficients(), time weight, dim, degree of fe_p *)
Record psetup := MkSetup { ps_density : R; ps_diff : R; ps_projection : bool; ps_stationary : bool; ps_variable : bool; ps_weight : R; ps_dim : nat; ps_degree : nat }.
(** a quadrature point of the cell: JxW, gradient of local shape function i in direction d, density *)
Record lpoint := MkL { lp_JxW : R; lp_grad : nat -> nat -> R; lp_density : R }.
(** a quadrature point of a face: JxW, value and normal derivative (outward) of local shape function i *)
Record fpoint := MkF { fp_JxW : R; fp_val : nat -> R; fp_dn : nat -> R }.
Inductive fkind := Inner | Open | Wall.
(** a face of a cell, or one of the subfaces if the face has children *)
Record piece := MkPiece {
  pc_kind : fkind;             (* at_boundary / open_conditions_p *)
  pc_fine : bool;              (* cell->face(f)->has_children(), which is cell->neighbor(f)->has_children() *)
  pc_coarse : bool;            (* neighbor->neighbor(face2)->has_children() *)
  pc_neigh : nat;              (* global number of the constant of the neighbor: local_dof_indices_p_neigh.back() *)
  pc_points : list fpoint;
  pc_ext_own : R; pc_ext_neigh : R;     (* extent_in_direction *)
  pc_own : R;                  (* face_densities of the cell and the face *)
  pc_child : R; pc_child_owned : bool   (* face_densities of neighbor_child and cell->neighbor_face_no(f); neighbor_child->is_locally_owned() *) }.
(** ic_dof c i: global number of the local unknown i <= n; unknown n is the constant *)
Record ipcell := MkCell { ic_n : nat; ic_dof : nat -> nat; ic_points : list lpoint; ic_pieces : list piece }.
Definition ic_const (c : ipcell) : nat := ic_dof c (ic_n c).

(** lines 2191-2204 *)
Definition rho_weight (S : psetup) (q : lpoint) : R :=
  if ps_stationary S then 1
  else (if ps_variable S && negb (ps_projection S) then lp_density q else Rmin (ps_density S) (ps_density S + ps_diff S)) * ps_weight S.
(** lines 2205-2217, 2239-2240: Tmmult *)
Definition laplace (S : psetup) (c : ipcell) (i j : nat) : R :=
  suml (ic_points c) (fun q => sumn (ps_dim S) (fun d => lp_JxW q / rho_weight S q * lp_grad q i d * lp_grad q j d)).
(** navier_stokes_preconditioner.h:261-275 *)
Definition face_density (S : psetup) (stored : R) : R :=
  if Req_EM_T (ps_diff S) 0 then ps_density S
  else if ps_projection S then Rmin (ps_density S) (ps_density S + ps_diff S) else stored.
(** lines 2264-2268, 2302, 2335 *)
Definition used_density (S : psetup) (p : piece) : R :=
  match pc_kind p with
  | Inner => if pc_fine p then (if pc_child_owned p then face_density S (pc_child p) else face_density S (pc_own p)) else face_density S (pc_own p)
  | _ => face_density S (pc_own p) end.
(** lines 2242-2246 *)
Definition time_weight (S : psetup) : R := if ps_stationary S then 1 else ps_weight S.
Definition scale (S : psetup) (p : piece) : R := 1 / (used_density S p * time_weight S).
(** lines 1632-1644 *)
Definition degsq (S : psetup) : R := INR (ps_degree S * (ps_degree S + 1)).
Definition penalty1 (S : psetup) (p : piece) : R := degsq S / pc_ext_own p * (if pc_fine p then 2 else 1).
Definition penalty2 (S : psetup) (p : piece) : R := degsq S / pc_ext_neigh p * (if pc_fine p then 1 else if pc_coarse p then 2 else 1).
Definition penalty (S : psetup) (p : piece) : R := 1 / 2 * (penalty1 S p + penalty2 S p).
(** lines 1652-1668: pressure_ip_matrix_1 (row of the constant of the neighbor) and pressure_ip_matrix_2 (column); the last entry of the
    latter is never written and keeps the zero from the construction of the matrix *)
Definition ip_flux (p : piece) (i : nat) : R := suml (pc_points p) (fun q => fp_dn q i * fp_JxW q).
Definition ip_matrix_1 (S : psetup) (c : ipcell) (p : piece) (i : nat) : R :=
  if Nat.ltb i (ic_n c) then ip_flux p i * scale S p * (1 / 2)
  else scale S p * penalty S p * suml (pc_points p) (fun q => - fp_JxW q).
Definition ip_matrix_2 (S : psetup) (c : ipcell) (p : piece) (i : nat) : R :=
  if Nat.ltb i (ic_n c) then ip_flux p i * scale S p * (1 / 2) else 0.
(** lines 1674-1698 *)
Definition nitsche (S : psetup) (p : piece) (i j : nat) : R :=
  let pen := degsq S / pc_ext_own p in
  suml (pc_points p) (fun q => ((2 * pen * fp_val q i - fp_dn q i) * fp_val q j - fp_dn q j * fp_val q i) * fp_JxW q) * scale S p.
(** lines 2248-2341: the cell matrix after one more face *)
Definition add_face (S : psetup) (c : ipcell) (M : nat -> nat -> R) (p : piece) : nat -> nat -> R :=
  match pc_kind p with
  | Inner =>
      let M1 := fun a b => if Nat.eqb a (ic_n c) then M a b - ip_matrix_1 S c p b else M a b in
      fun a b => if Nat.eqb b (ic_n c) then M1 a b - ip_matrix_2 S c p a else M1 a b
  | Open => fun a b => M a b + nitsche S p a b
  | Wall => M end.
Definition cell_matrix (S : psetup) (c : ipcell) : nat -> nat -> R := fold_left (add_face S c) (ic_pieces c) (laplace S c).
(** lines 2282-2295, 2313-2326: the entries with the neighbor *)
Definition face_entries (S : psetup) (c : ipcell) (p : piece) : list (nat * nat * R) :=
  match pc_kind p with
  | Inner => map (fun i => (pc_neigh p, ic_dof c i, ip_matrix_1 S c p i)) (seq 0 (Datatypes.S (ic_n c))) ++
             map (fun i => (ic_dof c i, pc_neigh p, ip_matrix_2 S c p i)) (seq 0 (Datatypes.S (ic_n c)))
  | _ => [] end.
(** lines 2343-2344 *)
Definition cell_entries (S : psetup) (c : ipcell) : list (nat * nat * R) :=
  flat_map (fun i => map (fun j => (ic_dof c i, ic_dof c j, cell_matrix S c i j)) (seq 0 (Datatypes.S (ic_n c)))) (seq 0 (Datatypes.S (ic_n c))).
Definition assemble (S : psetup) (cells : list ipcell) : list (nat * nat * R) :=
  flat_map (fun c => flat_map (face_entries S c) (ic_pieces c) ++ cell_entries S c) cells.
(** the quadratic form of the matrix with the added entries *)
Definition form (l : list (nat * nat * R)) (u v : nat -> R) : R := suml l (fun e => snd e * u (fst (fst e)) * v (snd (fst e))).

(** ** Sparsity pattern, lines 1340-1381 *)
Definition pattern (cells : list ipcell) : list (nat * nat) :=
  flat_map (fun c =>
    let dofs := map (ic_dof c) (seq 0 (Datatypes.S (ic_n c))) in
    list_prod dofs dofs ++
    flat_map (fun p => match pc_kind p with Inner => list_prod [pc_neigh p] dofs ++ list_prod dofs [pc_neigh p] | _ => [] end) (ic_pieces c)) cells.
