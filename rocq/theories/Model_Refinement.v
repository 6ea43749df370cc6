(** * Model of the mesh adaptation of the flow and two-phase solvers
    (source/navier_stokes.cc:1322-1369, source/two_phase_base.cc:119-196,325-437,
     source/level_set_base.cc:295-412, source/phase_field.cc:475-524) *)
From Coq Require Import ZArith QArith Bool List.
From Verif Require Import Num.
Import ListNotations.
Open Scope Z_scope.

Section Refinement.
Context {N : Num}.
Local Notation lit q := (nlit q).

(** The refinement and coarsening flag of a cell (deal.II CellAccessor). *)
Record flags := MkFlags { refine_flag : bool; coarsen_flag : bool }.
Definition no_flags := MkFlags false false.

(** A locally owned active cell with the data the marking routines read.
    - [c_error], [c_boundary]: error_per_cell and "some face at the boundary" (two_phase_base.cc:344-372)
    - [c_distance], [c_mod_distance]: the two logarithms of level_set_base.cc:352,393-399
    - [c_values]: the local concentration values (phase_field.cc:499) *)
Record cell := MkCell {
  c_level : Z; c_flags : flags;
  c_error : N; c_boundary : list bool;
  c_distance : N; c_mod_distance : N;
  c_values : list N }.
Definition with_flags (c : cell) (f : flags) : cell :=
  MkCell (c_level c) f (c_error c) (c_boundary c) (c_distance c) (c_mod_distance c) (c_values c).

(** one process: its owned cells *)
Definition rank := list cell.

(** Utilities::MPI::max over unsigned 0/1 values *)
Definition mpi_or (l : list bool) : bool :=
  negb (fold_left Z.max (map (fun b : bool => if b then 1 else 0) l) 0 =? 0).

(** ** two_phase_base.cc:360-384: one cell; returns the cell and its contribution to must_refine *)
Definition mark_two_phase_cell (lower upper : Z) (h_to_3 : N) (c : cell) : cell * bool :=
  let refine_cell := (c_level c <? upper) && ngtb (c_error c) (nmul (lit (3#10)) h_to_3) in
  let refine_cell := fold_left (fun (r at_boundary : bool) => if at_boundary then false else r) (c_boundary c) refine_cell in
  if refine_cell then (with_flags c (MkFlags true false), true)
  else if (lower <? c_level c) && nltb (c_error c) (nmul (lit (1#10)) h_to_3)
  then (with_flags c (MkFlags false true), true)
  else (with_flags c no_flags, false).

(** ** phase_field.cc:498-517 *)
Definition max_distance (l : list N) : N :=
  fold_left (fun m v => nmax m (nabs (nsub (lit (1#1)) (nmul v v)))) l (lit (0#1)).
Definition mark_phase_field_cell (lower upper : Z) (c : cell) : cell * bool :=
  let d := max_distance (c_values c) in
  if (c_level c <? upper) && ngtb d (lit (1#100)) then (with_flags c (MkFlags true false), true)
  else if (lower <? c_level c) && nltb d (lit (1#100)) then (with_flags c (MkFlags false true), true)
  else (with_flags c no_flags, false).

(** the loop over the cells of one process, must_refine accumulated *)
Definition mark_loop (f : cell -> cell * bool) (r : rank) : rank * bool :=
  fold_right (fun c acc => let '(c', b) := f c in (c' :: fst acc, b || snd acc)) ([], false) r.

(** two_phase_base.cc:327-390, all processes: the early return of line 330 leaves the flags alone *)
Definition mark_two_phase (adaptive_refinements lower step_no : Z) (h_to_3 : N) (m : list rank) : list rank * list bool :=
  if (adaptive_refinements =? 0) || negb (step_no mod 5 =? 0) then (m, map (fun _ => false) m)
  else
    let upper := adaptive_refinements + lower in
    let res := map (mark_loop (mark_two_phase_cell lower upper h_to_3)) m in
    let global := mpi_or (map snd res) in
    (map fst res, map (fun _ => global) m).

(** phase_field.cc:477-524 *)
Definition mark_phase_field (adaptive_refinements lower step_no : Z) (m : list rank) : list rank * list bool :=
  if (adaptive_refinements =? 0) || negb (step_no mod 5 =? 0) then (m, map (fun _ => false) m)
  else
    let upper := adaptive_refinements + lower in
    let res := map (mark_loop (mark_phase_field_cell lower upper)) m in
    let global := mpi_or (map snd res) in
    (map fst res, map (fun _ => global) m).

(** ** level_set_base.cc:297-412 *)
(** lines 354-356 *)
Definition probe_cell (lower upper step_no : Z) (c : cell) : bool :=
  ((c_level c <? upper) && ngtb (c_distance c) (lit (-35#10))) ||
  ((step_no =? 0) && (lower <? c_level c) && nltb (c_distance c) (lit (-8#1))).
(** lines 333-361: flags are cleared until the first cell that asks for adaptation *)
Fixpoint probe (lower upper step_no : Z) (r : rank) : rank * bool :=
  match r with
  | [] => ([], false)
  | c :: t =>
      let c' := with_flags c no_flags in
      if probe_cell lower upper step_no c then (c' :: t, true)
      else let '(t', b) := probe lower upper step_no t in (c' :: t', b)
  end.
(** lines 370-409 *)
Definition mark_level_set_cell (lower upper : Z) (c : cell) : cell :=
  let refine_cell := (c_level c <? upper) &&
    (ngtb (c_mod_distance c) (lit (-7#1)) || ngtb (c_distance c) (lit (-4#1))) in
  if refine_cell then with_flags c (MkFlags true false)
  else if (lower <? c_level c) && (nltb (c_mod_distance c) (lit (-8#1)) || nltb (c_distance c) (lit (-5#1)))
  then with_flags c (MkFlags false true)
  else with_flags c no_flags.
Definition mark_level_set (adaptive_refinements lower step_no : Z) (m : list rank) : list rank * list bool :=
  if adaptive_refinements =? 0 then (m, map (fun _ => false) m)
  else
    let upper := adaptive_refinements + lower in
    let res := map (probe lower upper step_no) m in
    let do_refine := mpi_or (map snd res) in
    if negb do_refine then (map fst res, map (fun _ => false) m)
    else (map (map (mark_level_set_cell lower upper)) (map fst res), map (fun _ => true) m).

(** ** navier_stokes.cc:1358-1364 after GridRefinement has set arbitrary flags *)
Definition clear_refine (c : cell) : cell := with_flags c (MkFlags false (coarsen_flag (c_flags c))).
Definition mark_pressure_based (max_grid_level : Z) (m : list rank) : list rank :=
  let n_levels := fold_left Z.max (map (fun c => c_level c + 1) (concat m)) 0 in
  if max_grid_level <? n_levels
  then map (map (fun c => if max_grid_level <=? c_level c then clear_refine c else c)) m
  else m.
End Refinement.
Arguments cell : clear implicits.
Arguments rank : clear implicits.
