(** * Densities on faces for the pressure matrix of augmented Taylor-Hood elements, over the history of a run
    source/navier_stokes_preconditioner.cc:1404-1424 [initialize_matrices: face_densities], include/adaflo/navier_stokes_preconditioner.h:227,
    244-275 [set_face_average_density, get_face_average_density], source/level_set_base.cc:142-154 [setup_problem], 188-292
    [advance_time_step], 416-447 [compute_density_on_faces], source/level_set_okz.cc:411-421 and source/level_set_okz_matrix.cc:95-105
    [compute_force], source/phase_field.cc:199-233 [compute_density_on_faces], 463-471 [advance_time_step], source/two_phase_base.cc:130-196
    [setup_problem], 394-441 [refine_grid], source/navier_stokes.cc:1162-1210 [compute_initial_stokes_field], 506-520 [assemble_preconditioner].

    Simplifications: real arithmetic; a time step is given by the indicator field it computes and the number of times the nonlinear solver
    builds the preconditioner (Model_NonlinearSolver.v decides when); a mesh is given by the cells a processor knows; the assertions, which
    are switched off in release mode, are not modelled. *)
From Coq Require Import Reals List Arith Bool.
From Verif Require Import SumR Model_Bubble Model_LevelSet.
Import ListNotations.
Open Scope R_scope.

(** an active cell: level(), index(), is_locally_owned(), is_artificial(), the degrees of freedom of the indicator and the values of the
    shape functions in the centers of the faces (face_center_quadrature) *)
Record mcell := MkMCell { mc_level : nat; mc_index : nat; mc_owned : bool; mc_artificial : bool; mc_n : nat; mc_dof : nat -> nat; mc_center : nat -> nat -> R }.
(** the cells in the order of the iterators, and triangulation.n_levels() *)
Record mesh := MkMesh { ms_cells : list mcell; ms_levels : nat }.
(** parameters.density, density_diff, augmented_taylor_hood, linearization == projection, faces_per_cell *)
Record fparams := MkFPar { fd_density : R; fd_diff : R; fd_augmented : bool; fd_projection : bool; fd_faces : nat }.
(** LevelSetOKZSolver, LevelSetOKZMatrixSolver, PhaseFieldSolver, and the solvers of sharp_interface.h *)
Inductive kind := LevelSet | LevelSetMatrix | PhaseField | SharpInterface.

(** std::vector<Table<2, double>> face_densities: level, index, face *)
Notation tables := (list (list (list R))).
Fixpoint put {A} (l : list A) (i : nat) (v : A) : list A :=
  match l, i with [], _ => [] | _ :: l, O => v :: l | x :: l, S i => x :: put l i v end.
(** face_densities[level](index, face); None: outside of the tables *)
Definition read (T : tables) (level index face : nat) : option R :=
  match nth_error T level with None => None
  | Some rows => match nth_error rows index with None => None | Some row => nth_error row face end end.
Definition write (T : tables) (level index face : nat) (v : R) : tables :=
  match nth_error T level with None => T
  | Some rows => match nth_error rows index with None => T | Some row => put T level (put rows index (put row face v)) end end.

(** navier_stokes_preconditioner.cc:1409-1416 *)
Definition max_index (cells : list mcell) (l : nat) : nat :=
  fold_left (fun m c => if negb (mc_artificial c) && Nat.eqb (mc_level c) l then Nat.max m (mc_index c) else m) cells O.
(** lines 1404, 1417-1421: the tables of a new mesh; reinit sets all entries to zero.  Without the condition the tables stay as they are *)
Definition initialize_matrices (P : fparams) (m : mesh) (T : tables) : tables :=
  if fd_augmented P && negb (if Req_EM_T (fd_diff P) 0 then true else false)
  then map (fun l => repeat (repeat 0 (fd_faces P)) (S (max_index (ms_cells m) l))) (seq 0 (ms_levels m)) else T.

(** level_set_base.cc:439-446: get_function_values and set_face_average_density for one cell *)
Definition set_cell (P : fparams) (h : nat -> R) (T : tables) (c : mcell) : tables :=
  fold_left (fun T f => write T (mc_level c) (mc_index c) f
                          (face_density (fd_density P) (fd_diff P) (mc_n c) (fun j => h (mc_dof c j)) (mc_center c f)))
            (seq 0 (fd_faces P)) T.
(** level_set_base.cc:416-447 *)
Definition compute_density_on_faces (P : fparams) (m : mesh) (h : nat -> R) (T : tables) : tables :=
  if negb (fd_augmented P) || (if Req_EM_T (fd_diff P) 0 then true else false) || fd_projection P then T
  else fold_left (set_cell P h) (filter mc_owned (ms_cells m)) T.
(** navier_stokes_preconditioner.h:261-275 *)
Definition get_face_average_density (P : fparams) (T : tables) (c : mcell) (f : nat) : option R :=
  if Req_EM_T (fd_diff P) 0 then Some (fd_density P)
  else if fd_projection P then Some (Rmin (fd_density P) (fd_density P + fd_diff P))
  else read T (mc_level c) (mc_index c) f.

(** one assembly of the preconditioner: parameters.density at this time (the density of the faces is only used if it is positive,
    navier_stokes_preconditioner.cc:2231), the mesh, and what get_face_average_density returns *)
Record build := MkBuild { bd_density : R; bd_mesh : mesh; bd_lookup : mcell -> nat -> option R }.
Record fstate := MkFState { st_mesh : mesh; st_tables : tables }.
(** navier_stokes.cc:506-520, with the given parameters.density *)
Definition assemble (P : fparams) (density : R) (s : fstate) : build :=
  MkBuild density (st_mesh s) (get_face_average_density P (st_tables s)).
(** the end of compute_force: only the level set solvers set the densities (level_set_okz.cc:420, level_set_okz_matrix.cc:104); nothing calls
    PhaseFieldSolver::compute_density_on_faces, and sharp_interface.h sets the densities in quadrature points only (lines 630-671, 939-980) *)
Definition compute_force (P : fparams) (k : kind) (h : nat -> R) (s : fstate) : fstate :=
  match k with
  | LevelSet | LevelSetMatrix => MkFState (st_mesh s) (compute_density_on_faces P (st_mesh s) h (st_tables s))
  | PhaseField | SharpInterface => s end.
Definition new_mesh (P : fparams) (m : mesh) (s : fstate) : fstate := MkFState m (initialize_matrices P m (st_tables s)).

(** the calls of a user *)
Inductive call :=
| Setup (m : mesh) (refined : list mesh) (stokes : nat)      (* setup_problem: the mesh, the initial refinements, builds of the initial Stokes problem *)
| Advance (h : nat -> R) (smoothed : option (nat -> R)) (builds : nat)   (* advance_time_step: the indicator, the one after additional smoothing *)
| Refine (m : option mesh).                                  (* refine_grid: the new mesh if cells are marked *)
(** two_phase_base.cc:130-196, navier_stokes.cc:1178-1179, 1208: density = 0 during the initial Stokes problem;
    level_set_base.cc:200-290, phase_field.cc:463-471; two_phase_base.cc:396-420 *)
Definition perform (P : fparams) (k : kind) (s : fstate) (c : call) : fstate * list build :=
  match c with
  | Setup m refined stokes =>
      let s := fold_left (fun s m => new_mesh P m s) refined (new_mesh P m s) in
      (s, repeat (assemble P 0 s) stokes)
  | Advance h smoothed builds =>
      let s := compute_force P k h s in
      let s := match smoothed with Some h' => compute_force P k h' s | None => s end in
      (s, repeat (assemble P (fd_density P) s) builds)
  | Refine m => (match m with Some m => new_mesh P m s | None => s end, []) end.
(** the solver is constructed with an empty mesh and empty tables *)
Definition start : fstate := MkFState (MkMesh [] 0) [].
Definition after (P : fparams) (k : kind) (calls : list call) : fstate := fold_left (fun s c => fst (perform P k s c)) calls start.
(** the builds during a call made after others *)
Definition builds_of (P : fparams) (k : kind) (before : list call) (c : call) : list build := snd (perform P k (after P k before) c).
