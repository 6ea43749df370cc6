(** * Model of the sharp-interface solvers
    include/adaflo/sharp_interface_util.h (point collection, surface forces, motion of the surface mesh) and
    include/adaflo/sharp_interface.h (FrontTrackingSolver, MixedLevelSetSolver).

    Simplifications: exact real arithmetic, one process, no vectorization over cells; the geometric searches of
    deal.II are parameters of the model. *)
From Coq Require Import Reals List Bool ZArith Permutation Sorted Lia.
From Verif Require Import Num SumR Model_TimeStepping Model_TwoPhaseClocks.
Import ListNotations.
Open Scope R_scope.

(** ** Point collection *)
(** (level, index) of a cell *)
Notation cellid := (Z * Z)%type.
(** operator< and operator!= of std::pair<int,int> *)
Definition cell_lt (a b : cellid) : Prop := (fst a < fst b \/ (fst a = fst b /\ snd a < snd b))%Z.
Definition cell_eqb (a b : cellid) : bool := (Z.eqb (fst a) (fst b) && Z.eqb (snd a) (snd b))%bool.
(** the tuples of [info], sharp_interface_util.h:244-246 and 588 *)
Record entry (P W : Type) := Entry { en_point : P; en_weight : W; en_cell : cellid }.
Arguments Entry {P W}. Arguments en_point {P W}. Arguments en_weight {P W}. Arguments en_cell {P W}.

(** sharp_interface_util.h:253-280: all cells around the point, each with the full weight; [None] is an exception of
    the search, swallowed by catch(...) *)
Definition collect_info_all {X P W} (locate : X -> option (list (cellid * P))) (pts : list (X * W)) : list (entry P W) :=
  flat_map (fun xw => match locate (fst xw) with
                      | Some l => map (fun cp => Entry (snd cp) (snd xw) (fst cp)) l
                      | None => [] end) pts.
(** sharp_interface_util.h:595-608: one cell per point *)
Definition collect_info_one {X P W} (locate : X -> cellid * P) (pts : list (X * W)) : list (entry P W) :=
  map (fun xw => Entry (snd (locate (fst xw))) (snd xw) (fst (locate (fst xw)))) pts.

(** std::sort with a comparison of the cells only, sharp_interface_util.h:283-285 and 611-613: some sorted permutation
    (the order of entries of the same cell is unspecified) *)
Definition std_sorted {P W} (info out : list (entry P W)) : Prop :=
  Permutation info out /\ Sorted (fun a b => ~ cell_lt (en_cell b) (en_cell a)) out.

(** the variables of the compression loop, sharp_interface_util.h:287-292 and 615-620 *)
Record cstate (P W : Type) := CState { cs_dummy : cellid; cs_cells : list cellid; cs_ptrs : list nat; cs_weights : list W; cs_points : list P }.
Arguments CState {P W}. Arguments cs_dummy {P W}. Arguments cs_cells {P W}. Arguments cs_ptrs {P W}. Arguments cs_weights {P W}. Arguments cs_points {P W}.
(** sharp_interface_util.h:294-304 and 622-632 *)
Definition compress_step {P W} (s : cstate P W) (i : entry P W) : cstate P W :=
  let s1 := if negb (cell_eqb (cs_dummy s) (en_cell i))
            then CState (en_cell i) (cs_cells s ++ [en_cell i]) (cs_ptrs s ++ [length (cs_weights s)]) (cs_weights s) (cs_points s)
            else s in
  CState (cs_dummy s1) (cs_cells s1) (cs_ptrs s1) (cs_weights s1 ++ [en_weight i]) (cs_points s1 ++ [en_point i]).
(** sharp_interface_util.h:287-307 and 615-635: cells, ptrs, weights, points *)
Definition compress {P W} (info : list (entry P W)) : list cellid * list nat * list W * list P :=
  let s := fold_left compress_step info (CState ((-1)%Z, (-1)%Z) [] [] [] []) in
  (cs_cells s, cs_ptrs s ++ [length (cs_weights s)], cs_weights s, cs_points s).

(** ** Surface forces *)
(** ArrayView(data + ptrs[i], ptrs[i+1] - ptrs[i]) *)
Definition view {A} (data : list A) (ptrs : list nat) (i : nat) : list A :=
  firstn (nth (S i) ptrs 0%nat - nth i ptrs 0%nat) (skipn (nth i ptrs 0%nat) data).
(** sharp_interface_util.h:398-434: for every cell, submit the weights, test with the shape functions and add to the
    global vector (empty constraints); [shape cell point g]: value of global basis function g in that cell.
    One component of the force; [v g] is the force vector *)
Definition assemble_force {P} (shape : cellid -> P -> nat -> R) (out : list cellid * list nat * list R * list P) (v : nat -> R) (g : nat) : R :=
  match out with (cells, ptrs, weights, points) =>
    fold_left (fun acc i => acc + suml (combine (view points ptrs i) (view weights ptrs i)) (fun pw => snd pw * shape (nth i cells ((-1)%Z, (-1)%Z)) (fst pw) g))
              (seq 0 (length cells)) (v g) end.
(** sharp_interface_util.h:366-368, front tracking: component c of the value at a surface quadrature point *)
Definition front_tracking_value (sigma kappa : R) (n : nat -> R) (JxW : R) (c : nat) : R := - kappa * n c * JxW * sigma.
(** Euclidean norm of a tensor with [d] components *)
Definition tnorm (d : nat) (n : nat -> R) : R := sqrt (sumn d (fun c => n c * n c)).
(** sharp_interface_util.h:765-770, mixed level set *)
Definition mixed_value (dim : nat) (sigma kappa : R) (n : nat -> R) (JxW : R) (c : nat) : R :=
  sigma * sigma * (n c / tnorm dim n) * kappa * JxW.
(** sharp_interface_util.h:925-929, marching cubes *)
Definition marching_value (dim : nat) (sigma kappa : R) (n : nat -> R) (JxW : R) (c : nat) : R :=
  sigma * (n c / tnorm dim n) * kappa * JxW.
(** sharp_interface_util.h:1002-1004,1033-1041, regularized: gradient of (ls + 1)/2 times the curvature *)
Definition regularized_value (nls : nat) (sigma kappa : R) (ls : nat -> R) (grad : nat -> nat -> R) (JxW : R) (c : nat) : R :=
  sigma * sumn nls (fun j => (ls j + 1) * (5/10) * grad j c) * kappa * JxW.

(** ** The right hand side of the flow solver *)
Definition position_t := nat -> R.
(** a quadrature formula on a cell: number of points, their positions, weights, shape function values *)
Record rule := Rule { ru_nq : nat; ru_point : nat -> position_t; ru_JxW : nat -> R; ru_shape : nat -> nat -> R }.
(** a cell of the background mesh for one velocity component: the two quadrature formulas of the flow solver
    (navier_stokes.cc:439-450; 0: velocity, 1: pressure), the densities stored in the operator (indexed by the
    points of formula 0: navier_stokes_matrix.h:306-315), the global numbers of the shape functions *)
Record rcell := RCell { rc_rule : nat -> rule; rc_rho : nat -> R; rc_n : nat; rc_dof : nat -> nat }.
(** constraints of the velocity: [con h = Some l] means dof h is the combination l of other dofs (hanging nodes; Dirichlet
    dofs have the empty list) *)
Definition constr := nat -> option (list (nat * R)).
(** AffineConstraints::distribute_local_to_global of one local entry *)
Definition scatter (con : constr) (h g : nat) (x : R) : R :=
  match con h with None => if Nat.eqb h g then x else 0
  | Some l => suml l (fun mw => if Nat.eqb (fst mw) g then x * snd mw else 0) end.
(** sharp_interface.h:703-738 (front tracking, quadrature index qi = 0) and 1023-1062 (mixed level set, qi =
    LevelSetSolver::quad_index_vel = 1, although the MatrixFree object is the one of the flow solver): the vector is
    zeroed, then the last velocity component receives the gravity force, with the constraints of the velocity *)
Definition gravity_force (qi : nat) (con : constr) (gravity density density_diff : R) (mesh : list rcell) (v : nat -> R) (g : nat) : R :=
  0 + suml mesh (fun c => sumn (rc_n c) (fun i => scatter con (rc_dof c i) g
        (sumn (ru_nq (rc_rule c qi)) (fun q => - (gravity * (if Req_EM_T density_diff 0 then density else rc_rho c q))
                                              * ru_shape (rc_rule c qi) q i * ru_JxW (rc_rule c qi) q)))).
(** update_surface_tension, front tracking: the assembled force is added *)
Definition surface_force {P} (shape : cellid -> P -> nat -> R) (out : list cellid * list nat * list R * list P) (v : nat -> R) : nat -> R :=
  assemble_force shape out v.
(** AffineConstraints::set_zero, sharp_interface.h:547-548 and 830-831 *)
Definition set_zero (con : constr) (v : nat -> R) (g : nat) : R := match con g with None => v g | Some _ => 0 end.
(** sharp_interface.h:544-548 / 827-831: the right hand side (last component) handed to the flow solver *)
Definition sharp_user_rhs {P} qi con gravity density density_diff mesh (shape : cellid -> P -> nat -> R) out (v : nat -> R) : nat -> R :=
  set_zero con (surface_force shape out (gravity_force qi con gravity density density_diff mesh v)).

(** ** Motion of the surface mesh *)
(** VectorTools::update_position_vector, sharp_interface_util.h:55-115. The coordinates are stored per surface node and
    component (MappingFEField with the nodal basis: the support point of node a is [x a]). Every cell lists its nodes.
    [vel] evaluates the background velocity. First pass (lines 80-98): velocities at the support points of all cells;
    second pass (102-113): all nodes of all cells written into a copy, reading positions from the unchanged vector. *)
Definition position := position_t.
Definition update_position_vector (dt : R) (vel : position -> nat -> R) (cells : list (list nat)) (x : nat -> position) : nat -> position :=
  let values := flat_map (fun cell => map (fun a => vel (x a)) cell) cells in
  fst (fold_left (fun tc cell =>
         fold_left (fun tc a => let '(t, counter) := tc in
                                let velocity := nth counter values (fun _ => 0) in
                                (fun b comp => if Nat.eqb b a then x a comp + dt * velocity comp else t b comp, S counter))
                   cell tc)
       cells (x, 0%nat)).

(** ** The phases *)
(** FEEvaluation::gather_evaluate with the constraints of the level set: constrained dofs are read as zero *)
Definition gathered_value (n : nat) (con : nat -> bool) (ls shape : nat -> R) : R := sumn n (fun i => (if con i then 0 else ls i) * shape i).
(** sharp_interface.h:940-977: value stored at a quadrature point; [stored]: the content before the call *)
Definition mixed_phase (prop prop_diff density_diff viscosity_diff : R) (n : nat) (con : nat -> bool) (ls shape : nat -> R) (stored : R) : R :=
  if Req_EM_T density_diff 0 then if Req_EM_T viscosity_diff 0 then stored
    else prop + prop_diff * ((gathered_value n con ls shape + 1) / 2)
  else prop + prop_diff * ((gathered_value n con ls shape + 1) / 2).
(** sharp_interface.h:633-672: [within] is the answer of boost::geometry::within *)
Definition front_phase (prop prop_diff density_diff viscosity_diff : R) (within : bool) (stored : R) : R :=
  if Req_EM_T density_diff 0 then if Req_EM_T viscosity_diff 0 then stored
    else prop + prop_diff * (if within then 1 else 0)
  else prop + prop_diff * (if within then 1 else 0).

(** ** One time step: position of the interface and the clock *)
(** sharp_interface.h:540-549 and 820-832: the interface is moved with time_stepping.step_size(); afterwards
    navier_stokes.advance_time_step() calls next() (navier_stokes.cc:751-753, 659-663). [d]: a request of the user for
    another step size between two steps. The interface is followed at a point with constant velocity [v]. *)
Record tracked := Tracked { tr_x : R; tr_clock : clock RNum }.
Definition sharp_step (v : R) (d : option R) (s : tracked) : tracked :=
  let c := request_step (tr_clock s) d in
  Tracked (tr_x s + step_size c * v) (next c).
Fixpoint sharp_loop (v : R) (ds : nat -> option R) (n : nat) (s : tracked) : tracked :=
  match n with O => s | S m => sharp_step v (ds m) (sharp_loop v ds m s) end.
(** sharp_interface.h:340-350 [LevelSetSolver::solve]: initial guess of the new level set value *)
Definition ls_extrapolate (step_size step_size_old ls ls_old : R) : R :=
  if Rlt_dec 0 step_size_old then (step_size + step_size_old) / step_size_old * ls + - step_size / step_size_old * ls_old else ls.
