(** * The memory report of the flow solver: memory_consumption() and the printed table

    Sizes are numbers of bytes ([N], so std::size_t does not overflow).  What deal.II and Trilinos say about
    the size of their objects is a parameter; only AlignedVector is modelled, as its memory_consumption() is
    the size of the object itself plus the elements of the allocated storage.  Of the table the numbers before the factor
    1e-6 and the formatting are modelled, one list entry for each line with a number; only process 0 prints. *)
From Coq Require Import String NArith List Bool.
Import ListNotations.
Open Scope N_scope.

(** AlignedVector<T>: number of elements in use, number of allocated elements, sizeof(T), sizeof(AlignedVector) *)
Record array := MkArray { used : N; allocated : N; element : N; header : N }.
Definition array_memory (a : array) : N := header a + element a * allocated a.

(** members of NavierStokesMatrix, navier_stokes_matrix.h:264-273 *)
Record operator := MkOperator {
  o_linearized : array; o_densities : array; o_viscosities : array; o_damping : array;
  o_linearized_prec : array; o_densities_prec : array; o_viscosities_prec : array; o_damping_prec : array }.

(** navier_stokes_matrix.cc:1156-1170 NavierStokesMatrix::memory_consumption *)
Definition operator_memory (o : operator) : N :=
  let memory := array_memory (o_linearized o) in
  let memory := memory + used (o_densities o) in
  let memory := memory + used (o_viscosities o) in
  let memory := memory + used (o_linearized_prec o) in
  let memory := memory + used (o_densities_prec o) in
  let memory := memory + used (o_viscosities_prec o) in
  let memory := memory + used (o_damping_prec o) in
  memory.

Definition line := (string * N)%type.
(** navier_stokes_matrix.cc:1172-1190 NavierStokesMatrix::print_memory_consumption *)
Definition operator_lines (o : operator) : list line :=
  [("Linearized velocities"%string, array_memory (o_linearized o) + array_memory (o_linearized_prec o))]
  ++ (if 0 <? used (o_viscosities o) then
        [("Variable densities & viscosities"%string,
          array_memory (o_densities o) + array_memory (o_viscosities o) + array_memory (o_damping o)
          + array_memory (o_densities_prec o) + array_memory (o_viscosities_prec o) + array_memory (o_damping_prec o))]
      else []).

(** members of NavierStokesPreconditioner with the memory deal.II reports for them; of the shared pointers [None] is the null
    pointer.  The ILU objects have no memory of their own in the report: the code takes that of the matrix. *)
Record preconditioner := MkPreconditioner {
  c_matrix_u : N; c_matrix_p : N; c_mass_matrix_p : N; c_constraints_schur : N; c_dof_handler_u_scalar : N; c_constraints_u_scalar : N;
  c_temp_vector : N; c_pressure_diagonal : N; c_ilu : bool; c_ilu_scalar : bool; c_amg : option N; c_poisson : option N }.

(** navier_stokes_preconditioner.cc:2704-2723 NavierStokesPreconditioner::memory_consumption *)
Definition preconditioner_memory (c : preconditioner) : N :=
  let memory := c_matrix_u c in
  let memory := memory + c_matrix_p c in
  let memory := memory + c_constraints_schur c in
  let memory := memory + c_dof_handler_u_scalar c in
  let memory := memory + c_constraints_u_scalar c in
  let memory := memory + c_temp_vector c * 2 in
  let memory := memory + 2 * c_pressure_diagonal c in
  let memory := if c_ilu c then memory + c_matrix_u c else memory in
  let memory := match c_amg c with Some m => memory + m | None => memory end in
  let memory := match c_poisson c with Some m => memory + m | None => memory end in
  memory + c_mass_matrix_p c.

(** navier_stokes_preconditioner.cc:2727-2748 NavierStokesPreconditioner::print_memory_consumption *)
Definition preconditioner_lines (c : preconditioner) : list line :=
  [("Preconditioner matrices"%string, c_matrix_u c + c_matrix_p c + c_mass_matrix_p c + c_pressure_diagonal c)]
  ++ (if c_ilu c || c_ilu_scalar c then [("ILU preconditioner for uu block"%string, c_matrix_u c)]
      else match c_amg c with Some m => [("AMG preconditioner for uu block"%string, m)] | None => [] end)
  ++ match c_poisson c with Some m => [("AMG preconditioner for pp block"%string, m)] | None => [] end.

(** the members of NavierStokes that are counted; [f_pointer] is [sizeof(this)], the size of a pointer *)
Record flow := MkFlow {
  f_pointer : N; f_dof_u : N; f_dof_p : N; f_fe_u : N; f_fe_p : N; f_constraints_u : N; f_constraints_p : N; f_hanging_u : N; f_hanging_p : N;
  f_operator : operator; f_preconditioner : preconditioner; f_matrix_free : N; f_rhs : N; f_triangulation : N }.

(** navier_stokes.cc:1464-1479 NavierStokes::memory_consumption *)
Definition flow_memory (f : flow) : N :=
  let memory := f_pointer f in
  let memory := memory + (f_dof_u f + f_dof_p f) in
  let memory := memory + (f_fe_u f + f_fe_p f) in
  let memory := memory + (f_constraints_u f + f_constraints_p f + f_hanging_u f + f_hanging_p f) in
  let memory := memory + operator_memory (f_operator f) in
  let memory := memory + preconditioner_memory (f_preconditioner f) in
  let memory := memory + f_matrix_free f in
  memory + 6 * f_rhs f.

(** navier_stokes.cc:1483-1515 NavierStokes::print_memory_consumption, called on process [rank]; the line of the triangulation is apart,
    as the flow solver does not own it *)
Definition flow_lines (rank : N) (f : flow) : list line :=
  if rank =? 0 then
    [("DoFHandler"%string, f_dof_u f + f_dof_p f);
     ("Matrix-free objects"%string, f_matrix_free f);
     ("Constraints"%string, f_constraints_u f + f_constraints_p f + f_hanging_u f + f_hanging_p f)]
    ++ operator_lines (f_operator f)
    ++ preconditioner_lines (f_preconditioner f)
    ++ [("Vectors"%string, 6 * f_rhs f)]
  else [].
Definition triangulation_line (rank : N) (f : flow) : list line :=
  if rank =? 0 then [("Triangulation"%string, f_triangulation f)] else [].

(** navier_stokes_matrix.cc:90-106 (initialize): [size] quadrature points in batches of cells, [lanes] doubles per vectorized number,
    [variable]: use_variable_coefficients, [explicit]: linearization is coupled_velocity_explicit, [stored]: sizeof(velocity_stored);
    resize of an empty AlignedVector allocates what it needs *)
Definition empty_array (e h : N) : array := MkArray 0 0 e h.
Definition sized_array (n e h : N) : array := MkArray n n e h.
Definition operator_initialize (size lanes h stored : N) (variable explicit : bool) : operator :=
  let scalar := if variable then sized_array size (8 * lanes) h else empty_array (8 * lanes) h in
  MkOperator (if explicit then empty_array stored h else sized_array size stored h) scalar scalar scalar
    (empty_array stored h) (empty_array (8 * lanes) h) (empty_array (8 * lanes) h) (empty_array (8 * lanes) h).
(** navier_stokes_matrix.cc:1144-1151 fix_linearization_point: the copies allocate the elements in use *)
Definition copy_array (src : array) : array := sized_array (used src) (element src) (header src).
Definition operator_fix (o : operator) : operator :=
  MkOperator (o_linearized o) (o_densities o) (o_viscosities o) (o_damping o)
    (copy_array (o_linearized o)) (copy_array (o_densities o)) (copy_array (o_viscosities o)) (copy_array (o_damping o)).
