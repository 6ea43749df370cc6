(** * Model of adaflo::LevelSetBaseAlgorithm::output_solution (source/level_set_base.cc:451-694),
      adaflo::TwoPhaseBaseAlgorithm::output_solution (source/two_phase_base.cc:550-588) and the flags set by
      FlowBaseAlgorithm::write_data_output (source/flow_base_algorithm.cc:242-243).
    Simplification: vectors are functions of the global index; the numberings of the DoFHandlers and of FESystem are given (their
    contract is [valid_numbering] in Properties_JointOutput.v). *)
From Coq Require Import ZArith QArith Reals Bool List String.
From Verif Require Import Num Model_Refinement Model_RefinementIndicator.
Import ListNotations.
Open Scope nat_scope.

(** FESystem::system_to_base_index(i): ((base element, copy), index within the base element) *)
Record base_index := MkBase { b_base : nat; b_copy : nat; b_index : nat }.
(** the four DoFHandlers on the same mesh, lines 471-526 *)
Record handlers := MkHandlers {
  h_cells : list nat; (** all active cells, the same order for all handlers *)
  h_subdomain : nat -> nat; (** cell->subdomain_id() *)
  h_joint_per_cell : nat; h_ls_per_cell : nat;
  h_system : nat -> base_index;
  h_joint : nat -> nat -> nat; h_vel : nat -> nat -> nat; h_pre : nat -> nat -> nat; h_ls : nat -> nat -> nat;
  h_joint_owner : nat -> nat }. (** the process that owns a joint degree of freedom *)
(** the vectors read: navier_stokes.solution, heaviside, solution, normal_vector_field *)
Record fields := MkFields { f_velocity : nat -> R; f_pressure : nat -> R; f_heaviside : nat -> R;
  f_level_set : nat -> R; f_curvature : nat -> R; f_normal : nat -> nat -> R }.

(** lines 528-581: the value assigned for local index i of a cell, if any *)
Definition joint_value (h : handlers) (F : fields) (cell i : nat) : option R :=
  let b := h_system h i in let index := b_index b in
  match b_base b with
  | 0 => if Nat.eqb (b_copy b) 0 then Some (f_velocity F (h_vel h cell index)) else None
  | 1 => Some (f_pressure F (h_pre h cell index))
  | 2 => let cur_index := Nat.modulo index (h_ls_per_cell h) in
         match b_copy b with
         | 0 => Some (f_heaviside F (h_ls h cell cur_index))
         | 1 => Some (f_level_set F (h_ls h cell cur_index))
         | 2 => Some (f_curvature F (h_ls h cell cur_index))
         | 3 => Some (INR (h_subdomain h cell))
         | _ => None
         end
  | 3 => let cur_index := Nat.modulo index (h_ls_per_cell h) in
         Some (f_normal F (b_copy b) (h_ls h cell cur_index))
  | _ => None
  end.
Definition write (v : nat -> R) (j : nat) (x : R) : nat -> R := fun k => if Nat.eqb k j then x else v k.
(** lines 510-583: process [p] visits its own cells and writes the entries it owns *)
Definition joint_cell (h : handlers) (F : fields) (p cell : nat) (v : nat -> R) : nat -> R :=
  fold_left (fun v i =>
    if Nat.eqb (h_joint_owner h (h_joint h cell i)) p
    then match joint_value h F cell i with Some x => write v (h_joint h cell i) x | None => v end
    else v) (seq 0 (h_joint_per_cell h)) v.
Definition joint_local (h : handlers) (F : fields) (p : nat) : nat -> R :=
  fold_left (fun v cell => if Nat.eqb (h_subdomain h cell) p then joint_cell h F p cell v else v) (h_cells h) (fun _ => 0%R).
(** line 584 update_ghost_values: everybody sees the value of the owner *)
Definition joint_solution (h : handlers) (F : fields) : nat -> R := fun j => joint_local h F (h_joint_owner h j) j.

(** lines 586-599 *)
Definition joint_names (dim : nat) (curvature_name : string) : list string :=
  (repeat "velocity"%string dim ++ ["pressure"%string; "heaviside"%string; "level_set"%string; curvature_name; "owner"%string]
   ++ repeat "normal_vector"%string dim)%list.
(** lines 656-665 *)
Definition joint_is_vector (dim : nat) : list bool :=
  map (fun i => Nat.ltb i dim || (Nat.leb (dim + 5) i && Nat.ltb i (2 * dim + 5))) (seq 0 (dim + 5 + dim)).

(** lines 619-651: the cell data.  The factor of the look-ahead is 20 here and 4 in mark_cells_for_refinement (line 392). *)
Definition shown_direction (epsilon step_size : R) (d : indicator_data) : ext :=
  let ls_gradient := last (id_gradients d) [] in
  ediv (ediv (Fin (20 * step_size * tdot ls_gradient (id_velocity_0 d))%R) (Fin (tnorm ls_gradient))) (Fin epsilon).
Definition shown_mod_distance (epsilon step_size : R) (d : indicator_data) : ext :=
  eadd (distance epsilon d) (emul (shown_direction epsilon step_size d) (Fin (id_level_set_0 d))).
Definition standard_refine (epsilon : R) (d : indicator_data) : bool := ngtb (N:=ENum) (distance epsilon d) (@nlit ENum (-7#1)).
Definition biased_refine (epsilon step_size : R) (d : indicator_data) : bool :=
  ngtb (N:=ENum) (shown_mod_distance epsilon step_size d) (@nlit ENum (-7#1)) || ngtb (N:=ENum) (distance epsilon d) (@nlit ENum (-4#1)).

(** lines 673-676 and two_phase_base.cc:578-581 *)
Definition patch_subdivisions (n_subdivisions velocity_degree concentration_subdivisions : nat) : nat :=
  if Nat.eqb n_subdivisions 0 then Nat.min velocity_degree concentration_subdivisions else n_subdivisions.

(** ** The call as a whole.  [compute_curvature] and [compute_heaviside] are the member functions: they read the level set and
    give the normals and the curvature, resp. the Heaviside function (exact linear solvers: no dependence on the initial guess). *)
Record solver := MkSolver { s_fields : fields; s_flags : nat -> flags; s_step_no : nat }.
Definition set_curvature (compute : (nat -> R) -> (nat -> nat -> R) * (nat -> R)) (F : fields) : fields :=
  let nk := compute (f_level_set F) in
  MkFields (f_velocity F) (f_pressure F) (f_heaviside F) (f_level_set F) (snd nk) (fst nk).
Definition set_heaviside (compute : (nat -> R) -> nat -> R) (F : fields) : fields :=
  MkFields (f_velocity F) (f_pressure F) (compute (f_level_set F)) (f_level_set F) (f_curvature F) (f_normal F).
(** what is written to the file *)
Record picture := MkPicture { pic_joint : nat -> R; pic_names : list string; pic_vector : list bool; pic_patches : nat }.
Definition level_set_output (dim : nat) (curvature_name : string) (at_tick print : bool)
    (velocity_degree concentration_subdivisions n_subdivisions : nat)
    (compute_curvature : (nat -> R) -> (nat -> nat -> R) * (nat -> R)) (compute_heaviside : (nat -> R) -> nat -> R)
    (h : handlers) (p : nat) (s : solver) : solver * option picture :=
  if negb at_tick then (s, None) (** 456-457 *)
  else if negb print then (s, None) (** 459-460 *)
  else
    let F := if Nat.eqb (s_step_no s) 0 then set_heaviside compute_heaviside (set_curvature compute_curvature (s_fields s)) else s_fields s in (** 464-469 *)
    let fl := fun c => if Nat.eqb (h_subdomain h c) p then MkFlags false false else s_flags s c in (** 622-627 *)
    (MkSolver F fl (s_step_no s),
     Some (MkPicture (joint_solution h F) (joint_names dim curvature_name) (joint_is_vector dim)
             (patch_subdivisions n_subdivisions velocity_degree concentration_subdivisions))).
(** two_phase_base.cc:550-588: every vector is passed with its own DoFHandler; nothing is computed *)
Record plain_picture := MkPlain { pp_data : list (string * (nat -> R)); pp_patches : nat }.
Definition two_phase_output (curvature_name : string) (at_tick print : bool)
    (velocity_degree concentration_subdivisions n_subdivisions : nat) (F : fields) : option plain_picture :=
  if negb at_tick then None else if negb print then None
  else Some (MkPlain [("velocity", f_velocity F); ("pressure", f_pressure F); ("concentration", f_level_set F);
                      (curvature_name, f_curvature F)]%string
                     (patch_subdivisions n_subdivisions velocity_degree concentration_subdivisions)).

(** ** Flags of the file, sharp_interface.h:556-560 and 839-843 (set by the sharp-interface solvers) and
    flow_base_algorithm.cc:243 (set in write_data_output, which is called afterwards) *)
Record vtk_flags := MkVtk { vtk_time : option R; vtk_cycle : option Z; vtk_higher_order : bool }.
Definition default_flags : vtk_flags := MkVtk None None false.
Definition sharp_flags : vtk_flags := MkVtk None None true.
Definition set_flags (old new : vtk_flags) : vtk_flags := new.
(** VtkFlags(time, cycle): the other members have their default values *)
Definition write_flags (old : vtk_flags) (now : R) (cycle : Z) : vtk_flags := set_flags old (MkVtk (Some now) (Some cycle) false).
Definition sharp_output_flags (now : R) (cycle : Z) : vtk_flags := write_flags (set_flags default_flags sharp_flags) now cycle.
