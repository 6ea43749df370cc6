(** * Model of the index tables of the Navier-Stokes preconditioner
    source/navier_stokes_preconditioner.cc:2496-2700 (IntegrationHelper), 1225-1251 (scalar_dof_indices) and
    include/adaflo/block_matrix_extension.h:104-152 (ComponentILUExtension).

    Simplifications: unsigned int is unbounded; an access outside of an array makes the function return [None]
    (so a [Some] result implies that no AssertIndexRange fires and no memory outside of the arrays is touched). *)
From Coq Require Import List Arith Lia Bool.
Import ListNotations.

(** the loop [for (unsigned int i = 0; i < n; ++i) body(i)] over a state, stopping at an invalid access *)
Fixpoint for_from {S} (n k : nat) (body : nat -> S -> option S) (s : S) : option S :=
  match n with
  | 0 => Some s
  | S n' => match body k s with Some s' => for_from n' (k + 1) body s' | None => None end
  end.
Definition for_loop {S} (n : nat) (body : nat -> S -> option S) (s : S) : option S := for_from n 0 body s.

(** arrays: [t[i] = v] and [t[i][j] = v] *)
Fixpoint upd {A} (l : list A) (i : nat) (v : A) : option (list A) :=
  match l, i with
  | [], _ => None
  | _ :: r, 0 => Some (v :: r)
  | a :: r, S i' => match upd r i' v with Some r' => Some (a :: r') | None => None end
  end.
Definition table := list (list nat).
Definition upd2 (t : table) (i j v : nat) : option table :=
  match nth_error t i with
  | Some row => match upd row j v with Some row' => upd t i row' | None => None end
  | None => None
  end.
Definition get2 (t : table) (i j : nat) : option nat :=
  match nth_error t i with Some row => nth_error row j | None => None end.
(** [resize(n, std::vector<unsigned int>(m))] on an empty vector *)
Definition make_table (n m : nat) : table := repeat (repeat 0 m) n.

(** navier_stokes_preconditioner.h: n_dofs = GeometryInfo<dim>::vertices_per_cell = 2^dim *)
Definition n_dofs (dim : nat) := 2 ^ dim.

(** navier_stokes_preconditioner.cc:2549-2624 [get_indices_sub_elements]; [lexicographic] is
    [get_poly_space_numbering_inverse()] of the element (FE_Q or FE_Q_DG0, the latter with one more entry) *)
Definition get_indices_sub_elements (dim degree : nat) (lexicographic : list nat) : option table :=
  if (dim =? 2) || (dim =? 3) then
    let dofs_per_dim := degree + 1 in
    let dofs_3d := if dim =? 3 then degree else 1 in
    let expand_3d := if dim =? 3 then 2 else 1 in
    for_loop dofs_3d (fun elz => for_loop degree (fun ely => for_loop degree (fun elx =>
      let index := elx + ely * degree + elz * degree * degree in
      let start_index := elx + ely * dofs_per_dim + elz * dofs_per_dim * dofs_per_dim in
      for_loop expand_3d (fun i => for_loop 2 (fun j => for_loop 2 (fun k t =>
        let ind := k + j * 2 + i * 4 in
        let loc_index := start_index + k + j * dofs_per_dim + i * dofs_per_dim * dofs_per_dim in
        match nth_error lexicographic loc_index with
        | Some dof_index => upd2 t index ind dof_index
        | None => None
        end))))))
      (make_table (degree ^ dim) (n_dofs dim))
  else if dim =? 1 then
    for_loop degree (fun elx => for_loop 2 (fun i t =>
      let loc_index := elx + i in
      match nth_error lexicographic loc_index with Some v => upd2 t elx i v | None => None end))
      (make_table degree (n_dofs dim))
  else None (* AssertThrow(false, ExcNotImplemented()) *).

(** navier_stokes_preconditioner.cc:2628-2700 [get_indices_sub_quad] *)
Definition get_indices_sub_quad (dim degree : nat) : option table :=
  if (dim =? 2) || (dim =? 3) then
    let points_per_dim := 2 * degree in
    let points_3d := if dim =? 3 then degree else 1 in
    let expand_3d := if dim =? 3 then 2 else 1 in
    for_loop points_3d (fun elz => for_loop degree (fun ely => for_loop degree (fun elx =>
      let index := elx + ely * degree + elz * degree * degree in
      let start_index := 2 * (elx + ely * points_per_dim + elz * points_per_dim * points_per_dim) in
      for_loop expand_3d (fun i => for_loop 2 (fun j => for_loop 2 (fun k t =>
        let ind := k + j * 2 + i * 4 in
        let loc_index := start_index + k + j * points_per_dim + i * points_per_dim * points_per_dim in
        upd2 t index ind loc_index))))))
      (make_table (degree ^ dim) (n_dofs dim))
  else if dim =? 1 then
    for_loop degree (fun el => for_loop 2 (fun i t => upd2 t el i (el * n_dofs dim + i))) (make_table degree (n_dofs dim))
  else None.

(** navier_stokes_preconditioner.cc:2496-2508 [set_local_ordering_u]; [sys]: system_to_component_index of fe_u *)
Definition set_local_ordering_u (dim per_component : nat) (sys : list (nat * nat)) : option table :=
  for_loop (length sys) (fun i t =>
    match nth_error sys i with Some (c, b) => upd2 t c b i | None => None end)
    (make_table dim per_component).

(** one locally owned cell as seen by lines 1231-1250: the scalar dof indices (position within the locally owned scalar
    dofs, [None] if the dof is not locally owned) and the vector-valued dof indices (positions within the owned ones) *)
Record cell_dofs := MkCell { scalar_dofs : list (option nat); vector_dofs : list nat }.
(** lines 1225-1250: scalar_dof_indices; [comp_to_sys d i] = component_to_system_index(d, i) *)
Definition scalar_dof_indices (dim n_owned : nat) (comp_to_sys : nat -> nat -> nat) (cells : list cell_dofs) : option (list nat) :=
  fold_left (fun r c =>
    match r with
    | None => None
    | Some a => for_loop (length (scalar_dofs c)) (fun i a =>
        match nth_error (scalar_dofs c) i with
        | Some (Some local_index) => for_loop dim (fun d a =>
            match nth_error (vector_dofs c) (comp_to_sys d i) with
            | Some global_index => upd a (local_index * dim + d) global_index
            | None => None
            end) a
        | Some None => Some a
        | None => None
        end) a
    end) cells (Some (repeat 0 (dim * n_owned))).

(** block_matrix_extension.h:122-148 [ComponentILUExtension::multiply]: gather, apply the scalar ILU to the [dim] columns of the
    multivector, scatter. Vectors are lists of an arbitrary type (values that the code only moves), [prec] is
    [Epetra_Operator::ApplyInverse] on one column. *)
Section Multiply.
Context {V : Type} (dim : nat) (index_by_component : list nat) (prec : list V -> list V).
Definition local_size := length index_by_component / dim.
Definition gather_one (src : list V) (i d : nat) : option V :=
  match nth_error index_by_component (i * dim + d) with Some k => nth_error src k | None => None end.
Fixpoint sequence {A} (l : list (option A)) : option (list A) :=
  match l with
  | [] => Some []
  | Some a :: r => match sequence r with Some r' => Some (a :: r') | None => None end
  | None :: _ => None
  end.
(** column d of src_cpy *)
Definition src_copy (src : list V) (d : nat) : option (list V) := sequence (map (fun i => gather_one src i d) (seq 0 local_size)).
Definition multiply (dst src : list V) : option (list V) :=
  match sequence (map (src_copy src) (seq 0 dim)) with
  | None => None
  | Some src_cpy =>
      let dst_cpy := map prec src_cpy in
      for_loop local_size (fun i => for_loop dim (fun d a =>
        match nth_error index_by_component (i * dim + d), nth_error dst_cpy d with
        | Some k, Some col => match nth_error col i with Some v => upd a k v | None => None end
        | _, _ => None
        end)) dst
  end.
End Multiply.
