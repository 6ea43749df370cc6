(** * Model of the global reductions
    include/adaflo/util.h:47-120 (compute_cell_diameters), source/two_phase_base.cc:479-506 (get_maximal_velocity) and
    513-546 (get_concentration_range).

    Simplifications: exact real arithmetic without NaN; the LAPACK eigenvalues, the finite element evaluation and the MPI
    collective are inputs: every rank contributes the list of what it would see, and [Utilities::MPI::max] is the maximum of the
    values of all ranks. *)
From Coq Require Import Reals List Bool.
Import ListNotations.
Open Scope R_scope.

(** Utilities::MPI::max: a reduction over the communicator; a communicator has at least one rank *)
Fixpoint mpi_max (l : list R) : R :=
  match l with [] => 0 | [x] => x | x :: r => Rmax x (mpi_max r) end.

(** util.h:63-77: the 2 dim face centers and the center; a point is a function of the direction *)
Definition center : nat -> R := fun _ => 1/2.
Definition set_coord (p : nat -> R) (d : nat) (v : R) : nat -> R := fun e => if Nat.eqb e d then v else p e.
Definition face_centers (dim : nat) : list (nat -> R) :=
  flat_map (fun d => [set_coord center d 0; set_coord center d 1]) (seq 0 dim) ++ [center].

(** a cell: its level and the absolute values of the eigenvalues of the Jacobian at the points of [face_centers] *)
Record dcell := MkDCell { dc_level : nat; dc_eigenvalues : list (list R) }.
(** util.h:94-110: loops over points q and directions d of one lane: (diameter[v], cell_diameter_min) *)
Definition scan_cell (c : dcell) (diam_min : R * R) : R * R :=
  fold_left (fun s evs => fold_left (fun s ev => (Rmax (fst s) ev, Rmin (snd s) ev)) evs s) (dc_eigenvalues c) diam_min.
(** util.h:86-113: loop over the lanes of a batch, state (diameter of the finished lanes, min, max) *)
Definition scan_lane (n_levels : nat) (s : list R * R * R) (c : dcell) : list R * R * R :=
  let '(diam, mn, mx) := s in
  let '(d, mn') := scan_cell c (0, mn) in
  (diam ++ [d], mn', if Nat.eqb (1 + dc_level c) n_levels then Rmax d mx else mx).
(** util.h:84-115: loop over the cell batches of one rank; result (cell_diameters, min, max) before the reduction *)
Definition scan_rank (dbl_max : R) (n_levels : nat) (batches : list (list dcell)) : list (list R) * R * R :=
  fold_left (fun s b => let '(ds, mn, mx) := s in
                        let '(diam, mn', mx') := fold_left (scan_lane n_levels) b ([], mn, mx) in (ds ++ [diam], mn', mx'))
    batches ([], dbl_max, 0).
(** util.h:116-119 *)
Definition compute_cell_diameters (dbl_max : R) (n_levels : nat) (ranks : list (list (list dcell))) : list (list (list R)) * R * R :=
  let r := map (scan_rank dbl_max n_levels) ranks in
  (map (fun x => fst (fst x)) r, - mpi_max (map (fun x => - snd (fst x)) r), mpi_max (map snd r)).

(** two_phase_base.cc:479-506 [get_maximal_velocity]: per rank, the list over locally owned cells of |u| at the sample points *)
Definition get_maximal_velocity (ranks : list (list (list R))) : R :=
  mpi_max (map (fun cells => fold_left (fun m vals => fold_left Rmax vals m) cells 0) ranks).

(** two_phase_base.cc:513-546 [get_concentration_range] *)
Definition get_concentration_range (dbl_max : R) (ranks : list (list (list R))) : R * R :=
  let r := map (fun cells => fold_left (fun s vals => fold_left (fun s c => (Rmin (fst s) c, Rmax (snd s) c)) vals s) cells (dbl_max, - dbl_max)) ranks in
  (- mpi_max (map (fun x => - fst x) r), mpi_max (map snd r)).

(** two_phase_base.cc:516: QIterated(QTrapezoid<1>, n): the points i / n per direction, here in one direction *)
Definition trapezoid_points (n : nat) : list R := map (fun i => INR i / INR n) (seq 0 (S n)).
(** two_phase_base.cc:290-291 *)
Definition epsilon_used (epsilon subdivisions diameter_max : R) : R := epsilon / subdivisions * diameter_max.
