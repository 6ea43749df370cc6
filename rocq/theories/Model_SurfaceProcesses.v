(** * Model of the surface tension forces of the sharp-interface solvers on several processes
    include/adaflo/sharp_interface_util.h:239-310 and 334-435 (front tracking), 630-807 (mixed level set), 810-982 (marching cubes).

    Model_SharpInterface.v has one process.  Here every process holds its part of the force vector (its own entries and copies of entries of
    others), its surface quadrature points and the background cells it stores.  Simplifications: exact real arithmetic, one component of
    the force; the searches of deal.II find exactly the cells that contain the point, among all cells (RemotePointEvaluation) or among the
    stored ones (find_active_cell_around_point, find_all_active_cells_around_point).  [cell->is_locally_owned()] is true for all cells of a
    surface mesh of class Triangulation, so that every process has all of the points of such a mesh. *)
From Coq Require Import Reals List Bool ZArith Lia.
From Verif Require Import SumR Model_SharpInterface.
Import ListNotations.
Open Scope R_scope.

Section Processes.
Context {X P : Type}.
(** number of processes, owner of an entry of the force vector, owner of a background cell, stored cells of a process *)
Variables (n : nat) (owner : nat -> nat) (owner_cell : cellid -> nat) (stored : nat -> cellid -> bool).
(** background cells around a point with the reference coordinates there *)
Variable around : X -> list (cellid * P).
(** value of the basis function of an entry in a cell at a reference point *)
Variable shape : cellid -> P -> nat -> R.
(** surface quadrature points of a process with JxW (mixed) or with the component of the force (front tracking) *)
Variable pts : nat -> list (X * R).

(** LinearAlgebra::distributed::Vector with the additions [added r g] of process r to entry g, own entry or copy:
    the entry on its owner without and with compress(VectorOperation::add) *)
Definition part (v : nat -> R) (added : nat -> nat -> R) (r g : nat) : R := (if Nat.eqb r (owner g) then v g else 0) + added r g.
Definition compress_add (v : nat -> R) (added : nat -> nat -> R) (g : nat) : R := sumn n (fun r => part v added r g).

(** sharp_interface_util.h:253-282 on process r: the search fails if no stored cell contains the point *)
Definition locate_on (r : nat) (x : X) : option (list (cellid * P)) :=
  match filter (fun cp => stored r (fst cp)) (around x) with [] => None | l => Some l end.
(** sharp_interface_util.h:334-435 ends without compress(): the entry of the owner has the owner's additions only;
    [infos r] is the sorted list of process r *)
Definition front_tracking_force (infos : nat -> list (entry P R)) (v : nat -> R) (g : nat) : R :=
  part v (fun r g => assemble_force shape (compress (infos r)) (fun _ => 0) g) (owner g) g.

(** curvature and normal of the background mesh *)
Variables (dim : nat) (sigma : R) (kappa : cellid -> P -> R) (normal : cellid -> P -> nat -> R) (comp : nat).
(** sharp_interface_util.h:690-795: process r works on the points that any process has sent because a cell of r contains them *)
Definition mixed_added (r g : nat) : R :=
  sumn n (fun s => suml (pts s) (fun xw => suml (filter (fun cp => Nat.eqb (owner_cell (fst cp)) r) (around (fst xw))) (fun cp =>
    mixed_value dim sigma (kappa (fst cp) (snd cp)) (normal (fst cp) (snd cp)) (snd xw) comp * shape (fst cp) (snd cp) g))).
(** sharp_interface_util.h:797-806 *)
Definition mixed_force (v : nat -> R) : nat -> R := compress_add v mixed_added.

(** all active background cells; points and weights in a cut cell (872-904) *)
Variables (cells : list cellid) (cut : cellid -> list (P * R)).
(** sharp_interface_util.h:857-976 *)
Definition marching_added (r g : nat) : R :=
  suml (filter (fun c => Nat.eqb (owner_cell c) r) cells) (fun c => suml (cut c) (fun pw =>
    marching_value dim sigma (kappa c (fst pw)) (normal c (fst pw)) (snd pw) comp * shape c (fst pw) g)).
(** sharp_interface_util.h:978-981 *)
Definition marching_force (v : nat -> R) : nat -> R := compress_add v marching_added.
End Processes.
