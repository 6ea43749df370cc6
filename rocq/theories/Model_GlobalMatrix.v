(** * Model of the global matrices of the preconditioner
    source/navier_stokes_preconditioner.cc:1083-1387 (constraints of the Schur complement and sparsity patterns in
    initialize_matrices), 1909-2362 (where the cell matrices go) and 2372-2475 (assemble_matrices).

    Simplifications: exact real arithmetic, one process, one thread; the cell matrices are inputs (Model_VelocityMatrix and
    Model_InteriorPenalty model how they are computed), and so are the numbering of the unknowns and the constraints.  What
    deal.II does is modelled as documented: AffineConstraints::distribute_local_to_global resolves constrained unknowns into their
    masters and, for square matrices, adds the absolute value of the local diagonal entry, or the average of these if that is zero,
    on the diagonal of constrained unknowns; add_entries_local_to_global makes room for the same entries; adding zero to a matrix
    does nothing, adding or setting an entry outside of the sparsity pattern throws ([None]). *)
From Coq Require Import Reals List Bool Arith.
From Verif Require Import SumR Model_Parameters Model_ProjectionMatrix.
Import ListNotations.
Open Scope R_scope.

Definition matrix := nat -> nat -> R.

(** ** deal.II: sparsity and adding of local matrices *)
(** an argument of add_entries_local_to_global: rows, columns, mask; [q_diag]: rows and columns are the same list *)
Record piece := MkPiece { q_n : nat; q_row : nat -> nat; q_m : nat; q_col : nat -> nat; q_mask : nat -> nat -> bool; q_diag : bool }.
Definition piece_pattern (con : constraints) (q : piece) : list (nat * nat) :=
  flat_map (fun a => flat_map (fun b => if q_mask q a b then
      flat_map (fun rw => map (fun cw => (fst rw, fst cw)) (expand con (q_col q b))) (expand con (q_row q a)) else [])
    (seq 0 (q_m q))) (seq 0 (q_n q))
  ++ (if q_diag q then flat_map (fun a => match con (q_row q a) with Some _ => [(q_row q a, q_row q a)] | None => [] end) (seq 0 (q_n q)) else []).
(** an argument of distribute_local_to_global *)
Record term := MkTerm { t_n : nat; t_row : nat -> nat; t_m : nat; t_col : nat -> nat; t_val : nat -> nat -> R; t_diag : bool }.
Definition average_diagonal (t : term) : R := sumn (t_n t) (fun a => Rabs (t_val t a a)) / INR (t_n t).
Definition new_diagonal (t : term) (a : nat) : R :=
  if Rneqb (Rabs (t_val t a a)) 0 then Rabs (t_val t a a) else average_diagonal t.
Definition term_entries (con : constraints) (t : term) : list (nat * nat * R) :=
  flat_map (fun a => flat_map (fun b =>
      flat_map (fun rw => map (fun cw => (fst rw, fst cw, snd rw * t_val t a b * snd cw)) (expand con (t_col t b))) (expand con (t_row t a)))
    (seq 0 (t_m t))) (seq 0 (t_n t))
  ++ (if t_diag t then flat_map (fun a => match con (t_row t a) with Some _ => [(t_row t a, t_row t a, new_diagonal t a)] | None => [] end)
                              (seq 0 (t_n t)) else []).

Definition set_zero (old : matrix) : matrix := fun _ _ => 0.
Definition add_entry (pat : list (nat * nat)) (M : option matrix) (e : nat * nat * R) : option matrix :=
  match M with
  | None => None
  | Some M =>
      if Rneqb (snd e) 0 then
        if in_pattern pat (fst (fst e)) (snd (fst e))
        then Some (fun r c => if Nat.eqb (fst (fst e)) r && Nat.eqb (snd (fst e)) c then M r c + snd e else M r c)
        else None
      else Some M
  end.
Definition set_one (pat : list (nat * nat)) (M : option matrix) (i : nat) : option matrix :=
  match M with
  | None => None
  | Some M => if in_pattern pat i i then Some (fun r c => if Nat.eqb r i && Nat.eqb c i then 1 else M r c) else None
  end.

(** ** The discretization *)
(** [s_dofs]: unknowns per velocity component on a cell; [s_lo]: local_ordering_u; [s_comp]: the component of a local unknown;
    [s_sub_u], [s_sub_p]: dof_to_lin_u, dof_to_lin_p (empty on simplex meshes, lines 1031-1041); [s_vertices]: vertices per cell *)
Record space := MkSpace { s_dim : nat; s_dofs : nat; s_lo : nat -> nat -> nat; s_comp : nat -> nat; s_vertices : nat;
  s_sub_u : list (nat -> nat); s_dofs_p : nat; s_sub_p : list (nat -> nat) }.
(** an inner face seen from a cell: the last unknown of the neighbor, pressure_ip_matrix_1(0,.), pressure_ip_matrix_2(.,0) *)
Record gface := MkGface { f_neighbor : nat; f_1 : nat -> R; f_2 : nat -> R }.
(** a cell: unknowns (vector valued, scalar, pressure) and cell matrices: velocity_matrix_permuted (component, i, j), the scalar
    one, linear_matrix of the velocity (sub-element, component, i, j), pressure_matrix before the inner faces, pressure_mass_matrix,
    linear_matrix of the pressure and of the pressure mass (sub-element, i, j); the inner faces *)
Record gcell := MkGcell { g_u : nat -> nat; g_scalar : nat -> nat; g_p : nat -> nat;
  g_V : nat -> nat -> nat -> R; g_S : nat -> nat -> R; g_L : nat -> nat -> nat -> nat -> R;
  g_P : nat -> nat -> R; g_M : nat -> nat -> R; g_LP : nat -> nat -> nat -> R; g_LM : nat -> nat -> nat -> R; g_faces : list gface }.
(** what is read from the parameters *)
Record setting := MkSetting { o_velocity : precondition_velocity; o_augmented : bool; o_density : bool; o_mass_ilu : bool }.

(** ** initialize_matrices *)
(** lines 1090-1176: on open boundaries, at the pinned unknown and at the first constant mode, [extra] unknowns get the value zero in
    addition; interpolate_boundary_values and add_line leave constrained unknowns alone, close() removes masters with value zero *)
Definition schur_constraints (conp : constraints) (extra : nat -> bool) : constraints := fun h =>
  match conp h with
  | Some l => Some (filter (fun mw => negb (extra (fst mw) && match conp (fst mw) with None => true | _ => false end)) l)
  | None => if extra h then Some [] else None
  end.
Definition constrained (con : constraints) (i : nat) : bool := match con i with Some _ => true | None => false end.
(** lines 1179-1186 *)
Definition schur_complement_only (n_p : nat) (conp cons : constraints) : list nat :=
  filter (fun i => constrained cons i && negb (constrained conp i)) (seq 0 n_p).

(** lines 1199-1287 *)
Definition velocity_pieces (p : precondition_velocity) (sp : space) (c : gcell) : list piece :=
  match p with
  | u_amg | u_ilu =>
      [MkPiece (s_dim sp * s_dofs sp) (g_u c) (s_dim sp * s_dofs sp) (g_u c) (fun k l => Nat.eqb (s_comp sp k) (s_comp sp l)) true]
  | u_ilu_scalar => [MkPiece (s_dofs sp) (g_scalar c) (s_dofs sp) (g_scalar c) (fun _ _ => true) true]
  | u_amg_linear =>
      flat_map (fun sub => map (fun d =>
        let dof := fun k => g_u c (s_lo sp d (sub k)) in MkPiece (s_vertices sp) dof (s_vertices sp) dof (fun _ _ => true) true)
        (seq 0 (s_dim sp))) (s_sub_u sp)
  end.
(** lines 1299-1325, [csp] *)
Definition pressure_pieces (o : setting) (sp : space) (c : gcell) : list piece :=
  let full := [MkPiece (s_dofs_p sp) (g_p c) (s_dofs_p sp) (g_p c) (fun _ _ => true) true] in
  match o_velocity o, o_augmented o with
  | u_amg_linear, false =>
      map (fun sub => let dof := fun k => g_p c (sub k) in MkPiece (s_vertices sp) dof (s_vertices sp) dof (fun _ _ => true) true) (s_sub_p sp)
  | _, _ => full
  end.
(** lines 1326-1375, [sparsity] for augmented elements *)
Definition augmented_pieces (sp : space) (c : gcell) : list piece :=
  MkPiece (s_dofs_p sp) (g_p c) (s_dofs_p sp) (g_p c) (fun _ _ => true) true ::
  flat_map (fun f => [MkPiece 1 (fun _ => f_neighbor f) (s_dofs_p sp) (g_p c) (fun _ _ => true) false;
                      MkPiece (s_dofs_p sp) (g_p c) 1 (fun _ => f_neighbor f) (fun _ _ => true) false]) (g_faces c).

Record patterns := MkPatterns { pat_u : list (nat * nat); pat_p : option (list (nat * nat)); pat_mass : option (list (nat * nat)) }.
Definition velocity_constraints (p : precondition_velocity) (conu conscalar : constraints) : constraints :=
  match p with u_ilu_scalar => conscalar | _ => conu end.
(** lines 1189-1387; lines 1376-1381: which of the pressure matrices exist *)
Definition initialize_matrices (o : setting) (sp : space) (conu conscalar cons : constraints) (cells : list gcell) : patterns :=
  let csp := flat_map (fun c => flat_map (piece_pattern cons) (pressure_pieces o sp c)) cells in
  MkPatterns
    (flat_map (fun c => flat_map (piece_pattern (velocity_constraints (o_velocity o) conu conscalar)) (velocity_pieces (o_velocity o) sp c)) cells)
    (if o_density o then
       if o_augmented o then Some (flat_map (fun c => flat_map (piece_pattern cons) (augmented_pieces sp c)) cells) else Some csp
     else None)
    (if o_mass_ilu o || o_augmented o then Some csp else None).

(** ** local_assemble_preconditioner *)
(** lines 1911-1916: the copies into velocity_matrix, which is zero otherwise *)
Definition velocity_matrix (sp : space) (V : nat -> nat -> nat -> R) (k l : nat) : R :=
  fold_left (fun acc w => let '(i, j, d) := w in if Nat.eqb k (s_lo sp d i) && Nat.eqb l (s_lo sp d j) then V d i j else acc)
    (flat_map (fun i => flat_map (fun j => map (fun d => (i, j, d)) (seq 0 (s_dim sp))) (seq 0 (s_dofs sp))) (seq 0 (s_dofs sp))) 0.
(** lines 1909-1934 and 1965-2056 *)
Definition velocity_terms (p : precondition_velocity) (sp : space) (c : gcell) : list term :=
  match p with
  | u_amg | u_ilu =>
      [MkTerm (s_dim sp * s_dofs sp) (g_u c) (s_dim sp * s_dofs sp) (g_u c) (velocity_matrix sp (g_V c)) true]
  | u_ilu_scalar => [MkTerm (s_dofs sp) (g_scalar c) (s_dofs sp) (g_scalar c) (g_S c) true]
  | u_amg_linear =>
      flat_map (fun is => map (fun d =>
        let dof := fun k => g_u c (s_lo sp d (snd is k)) in MkTerm (s_vertices sp) dof (s_vertices sp) dof (g_L c (fst is) d) true)
        (seq 0 (s_dim sp))) (combine (seq 0 (length (s_sub_u sp))) (s_sub_u sp))
  end.
(** lines 2266-2271 and 2308-2313: the part of the faces in the matrix of the cell *)
Definition pressure_matrix (sp : space) (o : setting) (c : gcell) (i j : nat) : R :=
  if o_augmented o then
    g_P c i j - (if Nat.eqb (S i) (s_dofs_p sp) then suml (g_faces c) (fun f => f_1 f j) else 0)
              - (if Nat.eqb (S j) (s_dofs_p sp) then suml (g_faces c) (fun f => f_2 f i) else 0)
  else g_P c i j.
Definition uses_linear (o : setting) : bool := match o_velocity o with u_amg_linear => negb (o_augmented o) | _ => false end.
(** lines 2060-2151: linear sub-elements; lines 2170-2352 otherwise *)
Definition poisson_terms (o : setting) (sp : space) (c : gcell) : list term :=
  if uses_linear o then
    map (fun is => let dof := fun k => g_p c (snd is k) in MkTerm (s_vertices sp) dof (s_vertices sp) dof (g_LP c (fst is)) true)
        (combine (seq 0 (length (s_sub_p sp))) (s_sub_p sp))
  else
    (if o_augmented o then
       flat_map (fun f => [MkTerm 1 (fun _ => f_neighbor f) (s_dofs_p sp) (g_p c) (fun _ j => f_1 f j) false;
                           MkTerm (s_dofs_p sp) (g_p c) 1 (fun _ => f_neighbor f) (fun i _ => f_2 f i) false]) (g_faces c)
     else [])
    ++ [MkTerm (s_dofs_p sp) (g_p c) (s_dofs_p sp) (g_p c) (pressure_matrix sp o c) true].
(** lines 2152-2166 and 2354-2361 *)
Definition mass_terms (o : setting) (sp : space) (c : gcell) : list term :=
  if uses_linear o then
    if o_mass_ilu o then
      map (fun is => let dof := fun k => g_p c (snd is k) in MkTerm (s_vertices sp) dof (s_vertices sp) dof (g_LM c (fst is)) true)
          (combine (seq 0 (length (s_sub_p sp))) (s_sub_p sp))
    else []
  else if o_mass_ilu o || o_augmented o then [MkTerm (s_dofs_p sp) (g_p c) (s_dofs_p sp) (g_p c) (g_M c) true] else [].

(** ** assemble_matrices, lines 2372-2475 *)
Definition add_terms (pat : list (nat * nat)) (con : constraints) (terms : list term) (old : matrix) : option matrix :=
  fold_left (add_entry pat) (flat_map (term_entries con) terms) (Some (set_zero old)).
(** lines 2384, 2409, 2429-2453; [n_u]: the number of unknowns of dof_handler_u or dof_handler_u_scalar *)
Definition assemble_u (o : setting) (sp : space) (conu conscalar : constraints) (n_u : nat) (pats : patterns) (cells : list gcell) (old : matrix) : option matrix :=
  let con := velocity_constraints (o_velocity o) conu conscalar in
  fold_left (set_one (pat_u pats)) (filter (constrained con) (seq 0 n_u))
    (add_terms (pat_u pats) con (flat_map (velocity_terms (o_velocity o) sp) cells) old).
(** lines 2386-2387, 2410-2411, 2459-2475; the list constraints_schur_complement_only is searched *)
Definition assemble_p (o : setting) (sp : space) (conp cons : constraints) (n_p : nat) (pats : patterns) (cells : list gcell) (old : matrix) : option matrix :=
  if o_density o then
    match pat_p pats with
    | None => None
    | Some pat =>
        fold_left (set_one pat)
          (filter (fun i => constrained cons i && negb (existsb (Nat.eqb i) (schur_complement_only n_p conp cons))) (seq 0 n_p))
          (add_terms pat cons (flat_map (poisson_terms o sp) cells) old)
    end
  else Some old.
(** lines 2388-2390, 2412-2414 *)
Definition assemble_mass (o : setting) (sp : space) (cons : constraints) (pats : patterns) (cells : list gcell) (old : matrix) : option matrix :=
  if o_mass_ilu o || o_augmented o then
    match pat_mass pats with
    | None => None
    | Some pat => add_terms pat cons (flat_map (mass_terms o sp) cells) old
    end
  else Some old.

(** ** compute_initial_stokes_field, navier_stokes.cc:1171-1178: the settings of the solve; the matrices are those of the setup *)
Definition initial_stokes (o : setting) : setting := MkSetting u_amg_linear (o_augmented o) false (o_mass_ilu o).

(** ** The operator of the pressure Poisson preconditioner without matrix, navier_stokes_matrix.cc:388-417 *)
Definition read_p (con : constraints) (c : gcell) (x : nat -> R) (b : nat) : R := suml (expand con (g_p c b)) (fun mw => snd mw * x (fst mw)).
Definition pressure_poisson_vmult (sp : space) (conp : constraints) (cells : list gcell) (src : nat -> R) (g : nat) : R :=
  if constrained conp g then src g else
  suml cells (fun c => sumn (s_dofs_p sp) (fun a => suml (expand conp (g_p c a)) (fun mw =>
    if Nat.eqb (fst mw) g then snd mw * sumn (s_dofs_p sp) (fun b => g_P c a b * read_p conp c src b) else 0))).
