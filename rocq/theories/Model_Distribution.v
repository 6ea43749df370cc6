(** * Model of the mesh adaptation on several processes, with the numbers each process computes from the part of the mesh it stores
    (source/two_phase_base.cc:159, 325-390; source/level_set_base.cc:295-412; source/phase_field.cc:475-524)

    Model_Refinement.v gives all processes the same level limit and the same comparison value.  The code computes both on each process from its
    own part of the mesh: [triangulation.n_levels()] counts the levels of the cells a process stores (deal.II has [n_global_levels()] for the
    number of levels of the whole mesh), [triangulation.last()] is the last cell a process stores. *)
From Coq Require Import ZArith QArith Bool List.
From Verif Require Import Num Model_Refinement.
Import ListNotations.
Open Scope Z_scope.

(** Triangulation::n_levels(): levels of the stored cells (owned, ghost and artificial; the coarse mesh is stored everywhere) *)
Definition n_levels (stored : list Z) : Z := fold_left Z.max (map (fun l => l + 1) stored) 0.
(** two_phase_base.cc:159 refine_lower_level_limit, on one process, from the levels of the cells it stores when setup_problem runs *)
Definition level_limit (stored : list Z) : Z := n_levels stored - 1.

Section Distribution.
Context {N : Num}.
(** A process: its level limit, made at setup, and its owned cells now.  [p_last] is triangulation.last()->diameter() now, to the power dim
    (two_phase_base.cc:351-353). *)
Record process := MkProcess { p_lower : Z; p_last : N; p_cells : rank N }.

(** level_set_base.cc:297-412; simplification as in Model_Refinement: the indicators of the cells are inputs *)
Definition mark_level_set_on (adaptive_refinements step_no : Z) (m : list process) : list (rank N) * list bool :=
  if adaptive_refinements =? 0 then (map p_cells m, map (fun _ => false) m)
  else
    let res := map (fun p => probe (p_lower p) (adaptive_refinements + p_lower p) step_no (p_cells p)) m in
    let do_refine := mpi_or (map snd res) in
    if negb do_refine then (map fst res, map (fun _ => false) m)
    else (map (fun p => map (mark_level_set_cell (p_lower p) (adaptive_refinements + p_lower p))
                            (fst (probe (p_lower p) (adaptive_refinements + p_lower p) step_no (p_cells p)))) m,
          map (fun _ => true) m).

(** phase_field.cc:477-524 *)
Definition mark_phase_field_on (adaptive_refinements step_no : Z) (m : list process) : list (rank N) * list bool :=
  if (adaptive_refinements =? 0) || negb (step_no mod 5 =? 0) then (map p_cells m, map (fun _ => false) m)
  else
    let res := map (fun p => mark_loop (mark_phase_field_cell (p_lower p) (adaptive_refinements + p_lower p)) (p_cells p)) m in
    let global := mpi_or (map snd res) in
    (map fst res, map (fun _ => global) m).

(** two_phase_base.cc:327-390 *)
Definition mark_two_phase_on (adaptive_refinements step_no : Z) (m : list process) : list (rank N) * list bool :=
  if (adaptive_refinements =? 0) || negb (step_no mod 5 =? 0) then (map p_cells m, map (fun _ => false) m)
  else
    let res := map (fun p => mark_loop (mark_two_phase_cell (p_lower p) (adaptive_refinements + p_lower p) (p_last p)) (p_cells p)) m in
    let global := mpi_or (map snd res) in
    (map fst res, map (fun _ => global) m).
End Distribution.
Arguments process : clear implicits.
