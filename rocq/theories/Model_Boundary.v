(** * Model of the boundary registry of [adaflo::FlowBaseAlgorithm]
      (include/adaflo/flow_base_algorithm.h, source/flow_base_algorithm.cc) and of its consumers *)
From stdpp Require Import gmap numbers list.
From Coq Require Import ZArith NArith String.
Open Scope N_scope.

(** types::boundary_id of deal.II (unsigned int); ids are numbers below 2^32 *)
Definition bid := N.
(** [types::boundary_id(-1)] *)
Definition invalid_id : bid := 4294967295.

(** Functions registered by the user (opaque, with their number of components) and the two library
    functions the registry creates itself: [Functions::ZeroFunction<dim>(n)] and
    [Functions::ConstantFunction<dim>(value, n)]. *)
Inductive func :=
| UserFun (id : nat) (n_components : N)
| ZeroFun (n_components : N)
| ConstFun (value : Z) (n_components : N).
Definition n_components (f : func) : N :=
  match f with UserFun _ n | ZeroFun n | ConstFun _ n => n end.

(** flow_base_algorithm.h:43-58 [helpers::BoundaryDescriptor]; the array periodic_boundaries[dim] is a
    map from the direction *)
Record registry := MkReg {
  dirichlet_u : gmap bid func;
  open_p : gmap bid func;
  pressure_fix : gmap bid (option func);
  normal_flux : gset bid;
  symmetry : gset bid;
  no_slip : gset bid;
  fluid_type : gmap bid func;
  periodic : N -> bid * bid }.

(** flow_base_algorithm.cc:25-29 *)
Definition empty_registry : registry :=
  MkReg ∅ ∅ ∅ ∅ ∅ ∅ ∅ (fun _ => (invalid_id, invalid_id)).

Inductive outcome := Done | Throws (msg : string).

(** the public registration functions *)
Inductive call :=
| ClearAll
| SetVelocity (b : bid) (f : option func) (ft : Z)
| SetOpen (b : bid) (f : option func) (ft : Z)
| SetOpenNormal (b : bid) (f : option func) (ft : Z)
| FixPressure (b : bid) (f : option func)
| SetSymmetry (b : bid)
| SetNoSlip (b : bid)
| SetPeriodic (dir : N) (b_in b_out : bid).

Definition set_du m r := MkReg m (open_p r) (pressure_fix r) (normal_flux r) (symmetry r) (no_slip r) (fluid_type r) (periodic r).
Definition set_op m r := MkReg (dirichlet_u r) m (pressure_fix r) (normal_flux r) (symmetry r) (no_slip r) (fluid_type r) (periodic r).
Definition set_pf m r := MkReg (dirichlet_u r) (open_p r) m (normal_flux r) (symmetry r) (no_slip r) (fluid_type r) (periodic r).
Definition set_nf m r := MkReg (dirichlet_u r) (open_p r) (pressure_fix r) m (symmetry r) (no_slip r) (fluid_type r) (periodic r).
Definition set_sy m r := MkReg (dirichlet_u r) (open_p r) (pressure_fix r) (normal_flux r) m (no_slip r) (fluid_type r) (periodic r).
Definition set_ns m r := MkReg (dirichlet_u r) (open_p r) (pressure_fix r) (normal_flux r) (symmetry r) m (fluid_type r) (periodic r).
Definition set_ft m r := MkReg (dirichlet_u r) (open_p r) (pressure_fix r) (normal_flux r) (symmetry r) (no_slip r) m (periodic r).
Definition set_pe m r := MkReg (dirichlet_u r) (open_p r) (pressure_fix r) (normal_flux r) (symmetry r) (no_slip r) (fluid_type r) m.

(** flow_base_algorithm.cc:56-66 [clear_all_boundary_conditions] *)
Definition clear_all (r : registry) : registry :=
  MkReg ∅ ∅ ∅ ∅ ∅ ∅ (fluid_type r) (periodic r).

(** the switch at the end of lines 81-97, 117-133, 154-170 *)
Definition store_fluid_type (b : bid) (ft : Z) (r : registry) : registry * outcome :=
  if (ft =? 0)%Z then (r, Done)
  else if (ft =? 1)%Z then (set_ft (<[b := ConstFun 1 1]> (fluid_type r)) r, Done)
  else if (ft =? -1)%Z then (set_ft (<[b := ConstFun (-1) 1]> (fluid_type r)) r, Done)
  else (r, Throws "Unknown fluid type").

(** flow_base_algorithm.cc:198-203 *)
Definition set_no_slip_boundary (b : bid) (r : registry) : registry * outcome :=
  (set_ns ({[b]} ∪ no_slip r) r, Done).

(** flow_base_algorithm.cc:70-98 *)
Definition set_velocity_dirichlet_boundary (dim : N) (b : bid) (f : option func) (ft : Z)
    (r : registry) : registry * outcome :=
  match f with
  | None => set_no_slip_boundary b r
  | Some f =>
      if n_components f =? dim
      then store_fluid_type b ft (set_du (<[b := f]> (dirichlet_u r)) r)
      else (r, Throws "Velocity boundary function need to have dim components.")
  end.

(** flow_base_algorithm.cc:102-134 *)
Definition set_open_boundary (b : bid) (f : option func) (ft : Z) (r : registry) : registry * outcome :=
  match f with
  | None => store_fluid_type b ft (set_op (<[b := ZeroFun 1]> (open_p r)) r)
  | Some f =>
      if n_components f =? 1
      then store_fluid_type b ft (set_op (<[b := f]> (open_p r)) r)
      else (r, Throws "Pressure boundary function needs to be scalar.")
  end.

(** flow_base_algorithm.cc:138-171 *)
Definition set_open_boundary_with_normal_flux (b : bid) (f : option func) (ft : Z) (r : registry)
    : registry * outcome :=
  match f with
  | None =>
      let r1 := set_op (<[b := ZeroFun 1]> (open_p r)) r in
      store_fluid_type b ft (set_nf ({[b]} ∪ normal_flux r1) r1)
  | Some f =>
      if n_components f =? 1
      then let r1 := set_op (<[b := f]> (open_p r)) r in
           store_fluid_type b ft (set_nf ({[b]} ∪ normal_flux r1) r1)
      else (r, Throws "Pressure boundary function needs to be scalar.")
  end.

(** flow_base_algorithm.cc:175-184 *)
Definition fix_pressure_constant (b : bid) (f : option func) (r : registry) : registry * outcome :=
  if match f with None => true | Some f => n_components f =? 1 end
  then (set_pf (<[b := f]> (pressure_fix r)) r, Done)
  else (r, Throws "Pressure boundary function need to be scalar.").

(** flow_base_algorithm.cc:188-194 *)
Definition set_symmetry_boundary (b : bid) (r : registry) : registry * outcome :=
  (set_sy ({[b]} ∪ symmetry r) r, Done).

(** flow_base_algorithm.cc:207-218 *)
Definition set_periodic_direction (dim : N) (dir : N) (b_in b_out : bid) (r : registry)
    : registry * outcome :=
  if dir <? dim
  then (set_pe (fun d => if d =? dir then (b_in, b_out) else periodic r d) r, Done)
  else (r, Throws "Coordinate direction must be between 0 and the dim").

Definition exec (dim : N) (c : call) (r : registry) : registry * outcome :=
  match c with
  | ClearAll => (clear_all r, Done)
  | SetVelocity b f ft => set_velocity_dirichlet_boundary dim b f ft r
  | SetOpen b f ft => set_open_boundary b f ft r
  | SetOpenNormal b f ft => set_open_boundary_with_normal_flux b f ft r
  | FixPressure b f => fix_pressure_constant b f r
  | SetSymmetry b => set_symmetry_boundary b r
  | SetNoSlip b => set_no_slip_boundary b r
  | SetPeriodic d i o => set_periodic_direction dim d i o r
  end.
(** a history of calls; exceptions are caught by the user, who goes on with the object *)
Fixpoint run (dim : N) (h : list call) (r : registry) : registry :=
  match h with
  | [] => r
  | c :: t => run dim t (fst (exec dim c r))
  end.

(** ** navier_stokes.cc:230-360 [initialize_data_structures]: the checks, in source order *)

Definition has {A} (m : gmap bid A) (b : bid) : bool := bool_decide (is_Some (m !! b)).
Definition hasS (s : gset bid) (b : bid) : bool := bool_decide (b ∈ s).

(** lines 245-274, one direction *)
Definition check_periodic (r : registry) (d : N) : outcome :=
  let '(i, o) := periodic r d in
  if (i =? invalid_id) && (o =? invalid_id) then Done
  else if negb (has (open_p r) i) && negb (has (open_p r) o) &&
          negb (has (dirichlet_u r) i) && negb (has (dirichlet_u r) o) &&
          negb (hasS (no_slip r) i) && negb (hasS (no_slip r) o) &&
          negb (hasS (symmetry r) i) && negb (hasS (symmetry r) o)
       then if negb (i =? o) then Done
            else Throws "The two faces for periodic boundary conditions must have different boundary indicators!"
       else Throws "Cannot mix periodic boundary conditions with other types of boundary conditions on same boundary!".

Fixpoint first_throw {A} (f : A -> outcome) (l : list A) : outcome :=
  match l with
  | [] => Done
  | a :: t => match f a with Done => first_throw f t | e => e end
  end.
Definition and_then (o : outcome) (k : outcome) : outcome := match o with Done => k | e => e end.

(** lines 276-287 *)
Definition check_symmetry (r : registry) (b : bid) : outcome :=
  if negb (has (open_p r) b) && negb (hasS (no_slip r) b) && negb (has (dirichlet_u r) b)
  then Done
  else Throws "Cannot mix symmetry boundary conditions with other boundary conditions on same boundary!".
(** lines 309-322 and 325-337 *)
Definition check_not_open (r : registry) (b : bid) : outcome :=
  if negb (has (open_p r) b) then Done
  else Throws "Cannot mix velocity Dirichlet conditions with open/pressure boundary conditions on same boundary!".
(** navier_stokes_preconditioner.cc:1117-1130, called from initialize_data_structures line 354 *)
Definition check_pressure_fix (r : registry) (b : bid) : outcome :=
  if bool_decide (open_p r = ∅) then Done
  else Throws "Cannot fix pressure when it is prescribed on some other boundaries".

Definition directions (dim : N) : list N := map N.of_nat (seq 0 (N.to_nat dim)).

Definition setup_checks (dim : N) (r : registry) : outcome :=
  and_then (first_throw (check_periodic r) (directions dim))
  (and_then (first_throw (check_symmetry r) (elements (symmetry r)))
  (and_then (first_throw (check_not_open r) (elements (dom (D:=gset bid) (dirichlet_u r))))
  (and_then (first_throw (check_not_open r) (elements (no_slip r)))
            (first_throw (check_pressure_fix r) (elements (dom (D:=gset bid) (pressure_fix r))))))).

(** ** navier_stokes.cc:1219-1244 [apply_boundary_conditions]: the map of velocity functions whose
    values are imposed; no-slip ids are entered after the Dirichlet ids *)
Definition imposed_velocity (dim : N) (r : registry) : gmap bid func :=
  set_fold (fun b m => <[b := ZeroFun dim]> m) (dirichlet_u r) (no_slip r).

(** ** Consumers of the fluid type map in two-phase solvers *)
(** level_set_okz.cc:48-192: the constructor of LevelSetOKZSolver creates the base object with a new
    (empty) registry and copies fluid_type into the advection operator (line 163), which keeps it as a
    const member (level_set_okz_advance_concentration.h:175); advance_concentration (.cc:525-531)
    imposes this copy.  LevelSetOKZMatrixSolver::advance_concentration (level_set_okz_matrix.cc:378-386)
    reads the registry itself. *)
Inductive ls_solver := OKZ | OKZMatrix.
Record two_phase := MkTP { tp_kind : ls_solver; tp_registry : registry; tp_copy : gmap bid func }.
Definition construct_two_phase (k : ls_solver) : two_phase :=
  let r := empty_registry in MkTP k r (fluid_type r).
Inductive event := Register (c : call) | Advance.
(** new object and, for [Advance], the Dirichlet map imposed on the level set function *)
Definition step_event (dim : N) (e : event) (t : two_phase) : two_phase * option (gmap bid func) :=
  match e with
  | Register c => (MkTP (tp_kind t) (fst (exec dim c (tp_registry t))) (tp_copy t), None)
  | Advance => (t, Some (match tp_kind t with OKZ => tp_copy t | OKZMatrix => fluid_type (tp_registry t) end))
  end.
Fixpoint run_events (dim : N) (l : list event) (t : two_phase) : two_phase :=
  match l with [] => t | e :: l => run_events dim l (fst (step_event dim e t)) end.
(** the map imposed by an advance after the history [l] *)
Definition imposed_after (dim : N) (k : ls_solver) (l : list event) : option (gmap bid func) :=
  snd (step_event dim Advance (run_events dim l (construct_two_phase k))).

(** ** navier_stokes_preconditioner.cc:1133-1157: choice of the pressure dof to fix.
    Each process has the sorted list of the pressure dofs on the given boundary it knows (the keys of
    std::map) and a predicate saying which are constrained already.  Dof indices below 2^31, where the
    conversions between int and global_dof_index do not wrap; INT_MIN is minus infinity. *)
Open Scope Z_scope.
Definition INT_MIN : Z := -2147483648.
Definition local_index (constrained : Z -> bool) (dofs : list Z) : Z :=
  (* for it in boundary_values: if !is_constrained(it->first)
       { min_local_index = -boundary_values.begin()->first; break; } *)
  if existsb (fun i => negb (constrained i)) dofs
  then match dofs with i :: _ => - i | [] => INT_MIN end
  else INT_MIN.
(** Utilities::MPI::max over the processes, then the change of sign; -INT_MIN gives 2^31, which fails the
    check against n_dofs (at most 2^31) *)
Definition chosen_index (procs : list ((Z -> bool) * list Z)) : Z :=
  - fold_right Z.max INT_MIN (map (fun p => local_index (fst p) (snd p)) procs).
Definition pressure_dof (n_dofs : Z) (procs : list ((Z -> bool) * list Z)) : option Z :=
  let m := chosen_index procs in if m <? n_dofs then Some m else None (* throws *).
