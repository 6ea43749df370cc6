(** * Model of the mutable state behind the Navier-Stokes operators, of the diagonal preconditioner and of the
    pressure Poisson wrapper

    source/navier_stokes_matrix.cc (coefficient fields), source/diagonal_preconditioner.cc,
    source/navier_stokes_preconditioner.cc (PressurePoissonMatrix, pinned pressure dofs).

    Simplifications: coefficient fields are lists of an arbitrary type; the cell loops are an arbitrary function
    of the fields that are in place while they run; real instead of floating point numbers; MPI reductions are
    folds over the list of processes; release mode (no Assert). *)
From Coq Require Import Reals ZArith List Bool Lra Lia.
Import ListNotations.

Section Matrix.
Context {A : Type}.                 (* content of one quadrature point batch *)

(** navier_stokes_matrix.h:262-275: the fields and their copies for the preconditioner *)
Record fields := MkFields { linearized : list A; densities : list A; viscosities : list A; dampings : list A }.
Record matrix := MkMatrix { cur : fields; pre : fields }.

(** navier_stokes_matrix.cc:1146-1152 [fix_linearization_point] *)
Definition fix_linearization_point (m : matrix) : matrix := MkMatrix (cur m) (cur m).
(** navier_stokes_matrix.cc:176-187 [clear] *)
Definition no_fields : fields := MkFields [] [] [] [].
Definition clear (m : matrix) : matrix := MkMatrix no_fields no_fields.
(** navier_stokes_matrix.cc:86-108 [initialize]: AlignedVector::resize(size, v) keeps existing entries and
    appends copies of v; [explicit]: linearization == coupled_velocity_explicit *)
Definition resize (size : nat) (v : A) (l : list A) : list A := firstn size l ++ repeat v (size - length l).
Definition initialize (size : nat) (variable explicit : bool) (lin0 rho0 mu0 d0 : A) (m : matrix) : matrix :=
  MkMatrix
    (MkFields (if explicit then linearized (cur m) else resize size lin0 (linearized (cur m)))
              (if variable then resize size rho0 (densities (cur m)) else densities (cur m))
              (if variable then resize size mu0 (viscosities (cur m)) else viscosities (cur m))
              (if variable then resize size d0 (dampings (cur m)) else dampings (cur m)))
    (pre m).

Definition nonempty {B} (l : list B) : bool := match l with [] => false | _ => true end.

(** std::swap of all four fields, lines 351-354 and 371-374 *)
Definition swap_all (m : matrix) : matrix := MkMatrix (pre m) (cur m).
(** lines 339-382 [velocity_vmult]: the fields in place while the cell loop runs, and the state afterwards *)
Definition velocity_vmult_state (m : matrix) : fields * matrix :=
  let m1 := if nonempty (linearized (pre m)) then swap_all m else m in
  (cur m1, if nonempty (linearized (cur m1)) then swap_all m1 else m1).

(** lines 388-417 [pressure_poisson_vmult] *)
Definition swap_densities (m : matrix) : matrix :=
  MkMatrix (MkFields (linearized (cur m)) (densities (pre m)) (viscosities (cur m)) (dampings (cur m)))
           (MkFields (linearized (pre m)) (densities (cur m)) (viscosities (pre m)) (dampings (pre m))).
Definition pressure_poisson_state (m : matrix) : fields * matrix :=
  let m1 := if nonempty (densities (pre m)) then swap_densities m else m in
  (cur m1, if nonempty (densities (pre m1)) then swap_densities m1 else m1).

(** lines 423-455 [pressure_mass_vmult] *)
Definition swap_viscosities (m : matrix) : matrix :=
  MkMatrix (MkFields (linearized (cur m)) (densities (cur m)) (viscosities (pre m)) (dampings (cur m)))
           (MkFields (linearized (pre m)) (densities (pre m)) (viscosities (cur m)) (dampings (pre m))).
Definition pressure_mass_state (m : matrix) : fields * matrix :=
  let m1 := if nonempty (viscosities (pre m)) then swap_viscosities m else m in
  (cur m1, if nonempty (viscosities (cur m1)) then swap_viscosities m1 else m1).

(** lines 266-293 [residual]: overwrites the stored linearization point (same number of entries) *)
Definition residual_state (new_lin : list A) (m : matrix) : matrix :=
  MkMatrix (MkFields (if nonempty (linearized (cur m)) then new_lin else linearized (cur m)) (densities (cur m)) (viscosities (cur m)) (dampings (cur m))) (pre m).
(** the two-phase solvers write into the coefficient fields (begin_densities, begin_viscosities) *)
Definition set_coefficients (d v k : list A) (m : matrix) : matrix :=
  MkMatrix (MkFields (linearized (cur m)) d v k) (pre m).

(** lines 630-643: the memory accesses of the cell loop of [vmult] stay inside the fields *)
Definition accesses_ok (explicit : bool) (n : nat) (f : fields) : bool :=
  (explicit || (length (linearized f) =? n)%nat) &&
  (negb (nonempty (densities f)) || ((length (densities f) =? n)%nat && (length (viscosities f) =? n)%nat && (length (dampings f) =? n)%nat)).

(** one call on the matrix; [amg]: parameters.precondition_velocity is u_amg or u_amg_linear
    (navier_stokes_preconditioner.cc:2393-2399), [diag]: the diagonal pressure mass branch (966-971) *)
Inductive call :=
| Residual (new_lin : list A)
| SetCoefficients (d v k : list A)
| Vmult | VelocityVmult | PoissonVmult | MassVmult.
Definition compute (amg diag : bool) (m : matrix) : matrix :=
  let m1 := if amg then fix_linearization_point m else m in
  if diag then snd (pressure_mass_state m1) else m1.
Definition step (c : call) (m : matrix) : matrix :=
  match c with
  | Residual l => residual_state l m
  | SetCoefficients d v k => set_coefficients d v k m
  | Vmult => m
  | VelocityVmult => snd (velocity_vmult_state m)
  | PoissonVmult => snd (pressure_poisson_state m)
  | MassVmult => snd (pressure_mass_state m)
  end.
Inductive action := Call (c : call) | Compute (diag : bool).
Definition act (amg : bool) (a : action) (m : matrix) : matrix :=
  match a with Call c => step c m | Compute diag => compute amg diag m end.
Definition run (amg : bool) (l : list action) (m : matrix) : matrix := fold_left (fun m a => act amg a m) l m.
(** fields a call works on *)
Definition used (c : call) (m : matrix) : fields :=
  match c with
  | VelocityVmult => fst (velocity_vmult_state m)
  | PoissonVmult => fst (pressure_poisson_state m)
  | MassVmult => fst (pressure_mass_state m)
  | _ => cur m
  end.
End Matrix.
Arguments fields : clear implicits.
Arguments matrix : clear implicits.
Arguments call : clear implicits.
Arguments action : clear implicits.

Open Scope R_scope.

(** ** DiagonalPreconditioner *)
(** std::abs and linfty_norm of the locally owned entries; the global norm is the maximum over all processes *)
Definition linfty (l : list R) : R := fold_right (fun x m => Rmax (Rabs x) m) 0 l.
Definition global_linfty (procs : list (list R)) : R := fold_right (fun l m => Rmax (linfty l) m) 0 procs.
(** diagonal_preconditioner.cc:47-51 *)
Definition invert_entry (norm d : R) : R :=
  if Rlt_dec (1 / 10000000000 * norm) (Rabs d) then 1 / d else 1.
(** lines 40-54 [reinit(Vector)]: per process, the inverse diagonal *)
Definition reinit_vector (procs : list (list R)) : list (list R) :=
  map (map (invert_entry (global_linfty procs))) procs.
(** lines 60-78 [reinit(BlockVector)]: per process, a list of blocks; BlockVector::linfty_norm is the maximum
    over all blocks and processes *)
Definition reinit_block (procs : list (list (list R))) : list (list (list R)) :=
  let norm := global_linfty (map (fun blocks => concat blocks) procs) in
  map (map (map (invert_entry norm))) procs.
(** local_element assignment *)
Fixpoint set_nth (l : list R) (i : nat) (x : R) : list R :=
  match l, i with
  | [], _ => []
  | _ :: l, O => x :: l
  | a :: l, S i => a :: set_nth l i x
  end.
(** lines 84-95 [vmult(Vector)] on one process; the loop runs on the memory (dst, src) *)
Fixpoint vmult_loop (inv : list R) (i n : nat) (dst src : list R) : list R :=
  match n with
  | O => dst
  | S n => vmult_loop inv (S i) n (set_nth dst i (nth i src 0 * nth i inv 0)) src
  end.
Definition vmult_vector (inv dst src : list R) : list R := vmult_loop inv 0 (length inv) dst src.
(** the same loop if dst and src are the same object *)
Fixpoint vmult_loop_inplace (inv : list R) (i n : nat) (x : list R) : list R :=
  match n with
  | O => x
  | S n => vmult_loop_inplace inv (S i) n (set_nth x i (nth i x 0 * nth i inv 0))
  end.
Definition vmult_vector_inplace (inv x : list R) : list R := vmult_loop_inplace inv 0 (length inv) x.
(** lines 101-124 [vmult(BlockVector)]: [inv_block] nonempty: scale entry by entry; else all blocks with the
    same vector *)
Definition scale (x inv : list R) : list R := map (fun p => fst p * snd p) (combine x inv).
Definition vmult_block (inv_block : list (list R)) (inv : list R) (dst src : list (list R)) : list (list R) :=
  if nonempty inv_block then map (fun p => scale (fst p) (snd p)) (combine src inv_block)
  else map (fun p => vmult_vector inv (fst p) (snd p)) (combine dst src).

(** ** PressurePoissonMatrix *)
Definition vect := nat -> R.
Definition upd (v : vect) (i : nat) (x : R) : vect := fun j => if Nat.eqb j i then x else v j.
(** navier_stokes_preconditioner.cc:396-403: first loop, returns the temporary values and the modified source *)
Fixpoint save_and_zero (cs : list nat) (src : vect) : list R * vect :=
  match cs with
  | [] => ([], src)
  | c :: cs => let '(tmp, src') := save_and_zero cs (upd src c 0) in (src c :: tmp, src')
  end.
(** lines 407-413: second loop on (src, dst) *)
Fixpoint restore (cs : list nat) (tmp diag : list R) (src dst : vect) : vect * vect :=
  match cs, tmp, diag with
  | c :: cs, t :: tmp, d :: diag => restore cs tmp diag (upd src c t) (upd dst c (d * t))
  | _, _, _ => (src, dst)
  end.
(** lines 387-415 [vmult]; [op] is ns_matrix.pressure_poisson_vmult, [trilinos] the use_trilinos_matrix branch *)
Definition poisson_vmult (trilinos : bool) (sparse op : vect -> vect) (cs : list nat) (diag : list R) (src : vect) : vect * vect :=
  if trilinos then (src, sparse src)
  else let '(tmp, src1) := save_and_zero cs src in restore cs tmp diag src1 (op src1).

(** navier_stokes_preconditioner.cc:1179-1186: the locally owned dofs that are constrained in the Schur complement
    but not in the pressure space; [owned i]: nth_index_in_set *)
Definition schur_only (n_owned : nat) (owned : nat -> nat) (schur pressure : nat -> bool) : list nat :=
  filter (fun i => schur (owned i) && negb (pressure (owned i))) (seq 0 n_owned).

(** lines 1117-1153: the pressure dof that is pinned. [boundary]: per process the sorted keys of boundary_values
    (locally relevant), [con]: already constrained; INT_MIN = -2^31 if there is none; result of -MPI::max converted to
    an unsigned 32 bit number *)
Open Scope Z_scope.
Definition int_min : Z := - 2147483648.
Definition min_local_index (con : Z -> bool) (keys : list Z) : Z :=
  if existsb (fun k => negb (con k)) keys then - hd 0 keys else int_min.
Definition pinned_dof (con : Z -> bool) (procs : list (list Z)) : Z :=
  Z.modulo (- fold_right Z.max int_min (map (min_local_index con) procs)) 4294967296.
Definition pin_accepted (con : Z -> bool) (procs : list (list Z)) (n_dofs : Z) : bool := pinned_dof con procs <? n_dofs.
Close Scope Z_scope.
