(** * Model of [adaflo::FlowParameters] (include/adaflo/parameters.h, source/parameters.cc) *)
From Coq Require Import ZArith QArith Bool List String Ascii.
From Verif Require Import Num Model_TimeStepping.
Import ListNotations.
Open Scope string_scope.

(** Outcome of code that may throw (AssertThrow / throw).  [Uninit] marks the reading of a member
    that no branch assigned (the Assert in that branch is not evaluated in release mode). *)
Inductive error := ExcUndeclared (key : string) | ExcPattern (key : string) | ExcMessage (m : string)
                 | Uninit (m : string).
Inductive result (A : Type) := Ok (a : A) | Err (e : error).
Arguments Ok {A}. Arguments Err {A}.
Definition bind {A B} (r : result A) (f : A -> result B) : result B :=
  match r with Ok a => f a | Err e => Err e end.
Notation "x <- r ;; k" := (bind r (fun x => k)) (at level 100, r at next level, right associativity).
Notation "'assert_throw' b , m ;; k" :=
  (bind (if b then Ok tt else Err (ExcMessage m)) (fun _ => k)) (at level 100, right associativity).

(** parameters.h:56-61, 78-85, 90-101 *)
Inductive physical_type := incompressible | incompressible_stationary | stokes.
Inductive linearization := coupled_implicit_newton | coupled_implicit_picard
  | coupled_velocity_semi_implicit | coupled_velocity_explicit | projection.
Inductive precondition_velocity := u_ilu | u_ilu_scalar | u_amg_linear | u_amg.
Inductive precondition_pressure := p_mass_diag | p_mass_ilu.

(** conversion of the long returned by ParameterHandler::get_integer to unsigned int *)
Definition to_unsigned (z : Z) : Z := (z mod 4294967296)%Z.
(** conversion of an integer to bool *)
Definition to_bool (z : Z) : bool := negb (z =? 0)%Z.

Section Params.
Context {N : Num}.

(** Values and patterns of deal.II's ParameterHandler.  Simplification: entries are typed values
    instead of text, i.e. the lexical analysis of numbers by deal.II is not modelled. *)
Inductive value := VInt (z : Z) | VDouble (x : N) | VText (s : string).
Inductive pattern := PInteger | PDouble | PSelection (l : list string) | PAnything.

(** Patterns::Integer() accepts the range of int, Patterns::Double() every number,
    Patterns::Selection the listed words, Patterns::Anything everything. *)
Definition matches (p : pattern) (v : value) : bool :=
  match p, v with
  | PInteger, VInt z => ((-2147483648 <=? z) && (z <=? 2147483647))%Z
  | PDouble, VDouble _ => true
  | PSelection l, VText s => existsb (String.eqb s) l
  | PAnything, VText _ => true
  | _, _ => false
  end.

(** parameters.cc:61-419 [declare_parameters]; the number in front is the source line; the section
    path is part of the key *)
Definition declarations : list (string * value * pattern) := [
  (* 65 *) ("Navier-Stokes/dimension", VInt (2), PInteger);
  (* 71 *) ("Navier-Stokes/global refinements", VInt (1), PInteger);
  (* 77 *) ("Navier-Stokes/anisotropic refinement", VInt (0), PInteger);
  (* 83 *) ("Navier-Stokes/simplex mesh", VInt (0), PInteger);
  (* 89 *) ("Navier-Stokes/adaptive refinements", VInt (0), PInteger);
  (* 95 *) ("Navier-Stokes/velocity degree", VInt (2), PInteger);
  (* 101 *) ("Navier-Stokes/augmented Taylor-Hood elements", VInt (0), PInteger);
  (* 110 *) ("Navier-Stokes/viscosity", VDouble (nlit (1 # 1)), PDouble);
  (* 114 *) ("Navier-Stokes/density", VDouble (nlit (1 # 1)), PDouble);
  (* 115 *) ("Navier-Stokes/damping", VDouble (nlit (0 # 1)), PDouble);
  (* 116 *) ("Navier-Stokes/physical type", VText "incompressible", PSelection ["incompressible"; "incompressible stationary"; "stokes"]);
  (* 124 *) ("Navier-Stokes/formulation convective term momentum balance", VText "skew-symmetric", PSelection ["skew-symmetric"; "convective"; "conservative"]);
  (* 135 *) ("Navier-Stokes/Solver/NL max iterations", VInt (10), PInteger);
  (* 140 *) ("Navier-Stokes/Solver/NL tolerance", VDouble (nlit (1 # 1000000)), PDouble);
  (* 145 *) ("Navier-Stokes/Solver/linearization scheme", VText "coupled implicit Newton", PSelection ["coupled implicit Newton"; "coupled implicit Picard"; "coupled velocity semi-implicit"; "coupled velocity explicit"; "projection"]);
  (* 164 *) ("Navier-Stokes/Solver/tau grad div", VDouble (nlit (0 # 1)), PDouble);
  (* 176 *) ("Navier-Stokes/Solver/lin max iterations", VInt (500), PInteger);
  (* 180 *) ("Navier-Stokes/Solver/lin tolerance", VDouble (nlit (1 # 1000)), PDouble);
  (* 184 *) ("Navier-Stokes/Solver/lin relative tolerance", VInt (1), PInteger);
  (* 190 *) ("Navier-Stokes/Solver/lin velocity preconditioner", VText "amg linear", PSelection ["ilu"; "ilu scalar"; "amg linear"; "amg"]);
  (* 206 *) ("Navier-Stokes/Solver/lin pressure mass preconditioner", VText "ilu", PSelection ["ilu"; "diagonal"]);
  (* 212 *) ("Navier-Stokes/Solver/lin its before inner solvers", VInt (50), PInteger);
  (* 229 *) ("Output options/output filename", VText "", PAnything);
  (* 233 *) ("Output options/output verbosity", VInt (2), PInteger);
  (* 243 *) ("Output options/output frequency", VDouble (nlit (1 # 1)), PDouble);
  (* 248 *) ("Output options/output vtk files", VInt (0), PInteger);
  (* 253 *) ("Output options/output wall times", VInt (0), PInteger);
  (* 257 *) ("Output options/output memory", VInt (0), PInteger);
  (* 264 *) ("Two phase/density", VDouble (nlit (-1 # 1)), PDouble);
  (* 270 *) ("Two phase/density difference", VDouble (nlit (0 # 1)), PDouble);
  (* 274 *) ("Two phase/viscosity", VDouble (nlit (-1 # 1)), PDouble);
  (* 280 *) ("Two phase/viscosity difference", VDouble (nlit (0 # 1)), PDouble);
  (* 285 *) ("Two phase/surface tension", VDouble (nlit (1 # 1)), PDouble);
  (* 289 *) ("Two phase/epsilon", VDouble (nlit (1 # 1)), PDouble);
  (* 294 *) ("Two phase/gravity", VDouble (nlit (0 # 1)), PDouble);
  (* 295 *) ("Two phase/diffusion length", VDouble (nlit (1 # 10)), PDouble);
  (* 300 *) ("Two phase/contact angle", VDouble (nlit (0 # 1)), PDouble);
  (* 305 *) ("Two phase/pressure constraint", VInt (1), PInteger);
  (* 309 *) ("Two phase/concentration subdivisions", VInt (2), PInteger);
  (* 314 *) ("Two phase/curvature correction", VInt (0), PInteger);
  (* 319 *) ("Two phase/grad pressure compatible", VInt (0), PInteger);
  (* 324 *) ("Two phase/localize surface tension", VInt (1), PInteger);
  (* 332 *) ("Two phase/approximate projections", VInt (0), PInteger);
  (* 339 *) ("Two phase/Cahn-Hilliard do Newton", VInt (1), PInteger);
  (* 346 *) ("Two phase/full nonlinear iteration", VInt (0), PInteger);
  (* 351 *) ("Two phase/number reinit steps", VInt (2), PInteger);
  (* 355 *) ("Two phase/number initial reinit steps", VInt (0), PInteger);
  (* 360 *) ("Two phase/convection stabilization", VInt (0), PInteger);
  (* 369 *) ("Time stepping/start time", VDouble (nlit (0 # 1)), PDouble);
  (* 373 *) ("Time stepping/end time", VDouble (nlit (1 # 1)), PDouble);
  (* 377 *) ("Time stepping/step size", VDouble (nlit (1 # 100)), PDouble);
  (* 383 *) ("Time stepping/CFL number", VDouble (nlit (4 # 5)), PDouble);
  (* 390 *) ("Time stepping/CFL number capillary", VDouble (nlit (10 # 1)), PDouble);
  (* 396 *) ("Time stepping/tolerance", VDouble (nlit (1 # 100)), PDouble);
  (* 401 *) ("Time stepping/max step size", VDouble (nlit (1 # 1)), PDouble);
  (* 406 *) ("Time stepping/min step size", VDouble (nlit (1 # 10)), PDouble);
  (* 411 *) ("Time stepping/scheme", VText "bdf_2", PSelection ["explicit_euler"; "implicit_euler"; "crank_nicolson"; "bdf_2"])].

Fixpoint find_decl (l : list (string * value * pattern)) (k : string) : option (value * pattern) :=
  match l with
  | [] => None
  | (k', v, p) :: t => if String.eqb k k' then Some (v, p) else find_decl t k
  end.
Definition declared (k : string) : option (value * pattern) := find_decl declarations k.

(** A parameter file is a list of assignments in the order of the file. *)
Definition pfile := list (string * value).
(** the last assignment of a key *)
Fixpoint last_assign (f : pfile) (k : string) : option value :=
  match f with
  | [] => None
  | (k', v) :: t =>
      match last_assign t k with
      | Some w => Some w
      | None => if String.eqb k k' then Some v else None
      end
  end.
(** the parameter data base after reading *)
Definition db := string -> option value.
Definition read_db (f : pfile) : db := fun k =>
  match declared k with
  | None => None
  | Some (d, _) => Some (match last_assign f k with Some v => v | None => d end)
  end.
(** deal.II: an undeclared entry is an error unless skip_undefined; the pattern is checked *)
Fixpoint check_entries (skip_undefined : bool) (f : pfile) : result unit :=
  match f with
  | [] => Ok tt
  | (k, v) :: t =>
      match declared k with
      | None => if skip_undefined then check_entries skip_undefined t else Err (ExcUndeclared k)
      | Some (_, p) => if matches p v then check_entries skip_undefined t else Err (ExcPattern k)
      end
  end.

Definition get_integer (d : db) (k : string) : result Z :=
  match d k with Some (VInt z) => Ok z | _ => Err (ExcUndeclared k) end.
Definition get_double (d : db) (k : string) : result N :=
  match d k with Some (VDouble x) => Ok x | _ => Err (ExcUndeclared k) end.
Definition get_text (d : db) (k : string) : result string :=
  match d k with Some (VText s) => Ok s | _ => Err (ExcUndeclared k) end.

(** parameters.h:50-142, data members ([unsigned int] as Z in [0,2^32)) *)
Record flow_params := MkFP {
  fp_dimension : Z; fp_global_refinements : Z; fp_adaptive_refinements : Z;
  fp_use_anisotropic_refinement : bool; fp_use_simplex_mesh : bool;
  fp_physical_type : physical_type;
  fp_beta : N;
  fp_velocity_degree : Z; fp_augmented_taylor_hood : bool;
  fp_viscosity : N; fp_density : N; fp_damping : N; fp_tau_grad_div : N;
  fp_max_nl_iteration : Z; fp_tol_nl_iteration : N;
  fp_linearization : linearization;
  fp_max_lin_iteration : Z; fp_tol_lin_iteration : N; fp_rel_lin_iteration : bool;
  fp_precondition_velocity : precondition_velocity;
  fp_precondition_pressure : precondition_pressure;
  fp_iterations_before_inner_solvers : Z;
  fp_output_filename : string; fp_output_verbosity : Z; fp_output_frequency : N;
  fp_print_solution_fields : Z; fp_output_wall_times : bool; fp_output_memory : bool;
  fp_time_step_scheme : scheme; fp_start_time : N; fp_end_time : N;
  fp_time_step_size_start : N; fp_time_stepping_cfl : N; fp_time_stepping_coef2 : N;
  fp_time_step_tolerance : N; fp_time_step_size_max : N; fp_time_step_size_min : N;
  fp_density_diff : N; fp_viscosity_diff : N;
  fp_surface_tension : N; fp_gravity : N; fp_epsilon : N; fp_diffusion_length : N;
  fp_contact_angle : N; fp_pressure_constraint : bool;
  fp_concentration_subdivisions : Z; fp_curvature_correction : Z;
  fp_interpolate_grad_onto_pressure : bool; fp_surface_tension_from_heaviside : bool;
  fp_approximate_projections : bool; fp_ch_do_newton : bool; fp_do_iteration : bool;
  fp_n_reinit_steps : Z; fp_n_initial_reinit_steps : Z; fp_convection_stabilization : bool }.

Definition positive (x : N) : bool := nltb (nlit (0#1)) x.          (* x > 0  *)
Definition nonneg (x : N) : bool := nltb (nlit (0#1)) x || neqb x (nlit (0#1)).   (* x >= 0 *)

(** parameters.cc:468-476 *)
Definition parse_type (t : string) : result physical_type :=
  if String.eqb t "stokes" then Ok stokes
  else if String.eqb t "incompressible" then Ok incompressible
  else if String.eqb t "incompressible stationary" then Ok incompressible_stationary
  else Err (Uninit "physical_type").
(** parameters.cc:479-481 with the map of parameters.h:63-68; operator[] of a missing key inserts 0 *)
Definition parse_beta (t : string) : N :=
  if String.eqb t "conservative" then nlit (1#1)
  else if String.eqb t "convective" then nlit (0#1)
  else if String.eqb t "skew-symmetric" then nlit (5#10)
  else nlit (0#1).
(** parameters.cc:486-498 *)
Definition parse_linearization (s : string) : result linearization :=
  if String.eqb s "coupled implicit Newton" then Ok coupled_implicit_newton
  else if String.eqb s "coupled implicit Picard" then Ok coupled_implicit_picard
  else if String.eqb s "coupled velocity semi-implicit" then Ok coupled_velocity_semi_implicit
  else if String.eqb s "coupled velocity explicit" then Ok coupled_velocity_explicit
  else if String.eqb s "projection" then Ok projection
  else Err (Uninit "linearization").
(** parameters.cc:513-522 *)
Definition parse_uprec (s : string) : result precondition_velocity :=
  if String.eqb s "ilu" then Ok u_ilu
  else if String.eqb s "ilu scalar" then Ok u_ilu_scalar
  else if String.eqb s "amg linear" then Ok u_amg_linear
  else if String.eqb s "amg" then Ok u_amg
  else Err (ExcMessage "Invalid name").
(** parameters.cc:524-527 *)
Definition parse_pprec (s : string) : precondition_pressure :=
  if String.eqb s "ilu" then p_mass_ilu else p_mass_diag.
(** parameters.cc:599-611 *)
Definition parse_scheme (s : string) : result scheme :=
  if String.eqb s "implicit_euler" then Ok implicit_euler
  else if String.eqb s "explicit_euler" then Ok explicit_euler
  else if String.eqb s "crank_nicolson" then Ok crank_nicolson
  else if String.eqb s "bdf_2" then Ok bdf_2
  else Err (ExcMessage "ExcInternalError").

Definition is_stokes (t : physical_type) : bool :=
  match t with stokes => true | _ => false end.

(** parameters.cc:450-614 [parse_parameters(ParameterHandler &)], in source order.  The two
    Asserts (500-503 and 538) are debug-only and not evaluated. *)
Definition parse_parameters (d : db) : result flow_params :=
  dimension <- get_integer d "Navier-Stokes/dimension";;
  global_refinements <- get_integer d "Navier-Stokes/global refinements";;
  adaptive_refinements <- get_integer d "Navier-Stokes/adaptive refinements";;
  aniso <- get_integer d "Navier-Stokes/anisotropic refinement";;
  simplex <- get_integer d "Navier-Stokes/simplex mesh";;
  degree <- get_integer d "Navier-Stokes/velocity degree";;
  let velocity_degree := to_unsigned degree in
  assert_throw (1 <? velocity_degree)%Z, "ExcNotImplemented";;
  ath <- get_integer d "Navier-Stokes/augmented Taylor-Hood elements";;
  viscosity0 <- get_double d "Navier-Stokes/viscosity";;
  density0 <- get_double d "Navier-Stokes/density";;
  damping <- get_double d "Navier-Stokes/damping";;
  type <- get_text d "Navier-Stokes/physical type";;
  ptype <- parse_type type;;
  let density1 := if is_stokes ptype then nlit (0#1) else density0 in
  form <- get_text d "Navier-Stokes/formulation convective term momentum balance";;
  max_nl <- get_integer d "Navier-Stokes/Solver/NL max iterations";;
  tol_nl <- get_double d "Navier-Stokes/Solver/NL tolerance";;
  scheme <- get_text d "Navier-Stokes/Solver/linearization scheme";;
  lin <- parse_linearization scheme;;
  tau <- get_double d "Navier-Stokes/Solver/tau grad div";;
  assert_throw (nonneg tau), "Invalid parameter value";;
  max_lin <- get_integer d "Navier-Stokes/Solver/lin max iterations";;
  tol_lin <- get_double d "Navier-Stokes/Solver/lin tolerance";;
  rel_lin <- get_integer d "Navier-Stokes/Solver/lin relative tolerance";;
  uprec <- get_text d "Navier-Stokes/Solver/lin velocity preconditioner";;
  pprec <- get_text d "Navier-Stokes/Solver/lin pressure mass preconditioner";;
  up <- parse_uprec uprec;;
  ibis <- get_integer d "Navier-Stokes/Solver/lin its before inner solvers";;
  out_name <- get_text d "Output options/output filename";;
  verbosity <- get_integer d "Output options/output verbosity";;
  out_freq <- get_double d "Output options/output frequency";;
  vtk <- get_integer d "Output options/output vtk files";;
  let print_solution_fields := if (2 <? to_unsigned vtk)%Z then 1%Z else to_unsigned vtk in
  wall <- get_integer d "Output options/output wall times";;
  memory <- get_integer d "Output options/output memory";;
  density_tp <- get_double d "Two phase/density";;
  let density2 := if positive density_tp then density_tp else density1 in
  density_diff0 <- get_double d "Two phase/density difference";;
  let density := if is_stokes ptype then nlit (0#1) else density2 in
  let density_diff := if is_stokes ptype then nlit (0#1) else density_diff0 in
  viscosity_tp <- get_double d "Two phase/viscosity";;
  let viscosity := if positive viscosity_tp then viscosity_tp else viscosity0 in
  viscosity_diff <- get_double d "Two phase/viscosity difference";;
  surface_tension <- get_double d "Two phase/surface tension";;
  gravity <- get_double d "Two phase/gravity";;
  epsilon <- get_double d "Two phase/epsilon";;
  diffusion_length <- get_double d "Two phase/diffusion length";;
  contact_angle <- get_double d "Two phase/contact angle";;
  pressure_constraint <- get_integer d "Two phase/pressure constraint";;
  assert_throw (positive diffusion_length), "Diffusion length must be positive";;
  assert_throw (positive epsilon), "Diffusion length must be positive";;
  subdivisions <- get_integer d "Two phase/concentration subdivisions";;
  curv_corr <- get_integer d "Two phase/curvature correction";;
  grad_p <- get_integer d "Two phase/grad pressure compatible";;
  localize <- get_integer d "Two phase/localize surface tension";;
  approx <- get_integer d "Two phase/approximate projections";;
  ch_newton <- get_integer d "Two phase/Cahn-Hilliard do Newton";;
  full_nl <- get_integer d "Two phase/full nonlinear iteration";;
  n_reinit <- get_integer d "Two phase/number reinit steps";;
  n_init_reinit <- get_integer d "Two phase/number initial reinit steps";;
  conv_stab <- get_integer d "Two phase/convection stabilization";;
  start_time <- get_double d "Time stepping/start time";;
  end_time <- get_double d "Time stepping/end time";;
  step_start <- get_double d "Time stepping/step size";;
  cfl <- get_double d "Time stepping/CFL number";;
  coef2 <- get_double d "Time stepping/CFL number capillary";;
  tolerance <- get_double d "Time stepping/tolerance";;
  step_max0 <- get_double d "Time stepping/max step size";;
  step_min0 <- get_double d "Time stepping/min step size";;
  let step_max := if nltb step_start step_min0 then step_start else step_max0 in
  let step_min := if nltb step_start step_min0 then step_start else step_min0 in
  schem <- get_text d "Time stepping/scheme";;
  ts <- parse_scheme schem;;
  Ok {|
    fp_dimension := to_unsigned dimension;
    fp_global_refinements := to_unsigned global_refinements;
    fp_adaptive_refinements := to_unsigned adaptive_refinements;
    fp_use_anisotropic_refinement := (0 <? aniso)%Z; fp_use_simplex_mesh := (0 <? simplex)%Z;
    fp_physical_type := ptype; fp_beta := parse_beta form;
    fp_velocity_degree := velocity_degree; fp_augmented_taylor_hood := to_bool ath;
    fp_viscosity := viscosity; fp_density := density; fp_damping := nopp damping;
    fp_tau_grad_div := tau;
    fp_max_nl_iteration := to_unsigned max_nl; fp_tol_nl_iteration := tol_nl;
    fp_linearization := lin;
    fp_max_lin_iteration := to_unsigned max_lin; fp_tol_lin_iteration := tol_lin;
    fp_rel_lin_iteration := (0 <? rel_lin)%Z;
    fp_precondition_velocity := up; fp_precondition_pressure := parse_pprec pprec;
    fp_iterations_before_inner_solvers := to_unsigned ibis;
    fp_output_filename := out_name; fp_output_verbosity := to_unsigned verbosity;
    fp_output_frequency := out_freq; fp_print_solution_fields := print_solution_fields;
    fp_output_wall_times := (0 <? wall)%Z; fp_output_memory := (0 <? memory)%Z;
    fp_time_step_scheme := ts; fp_start_time := start_time; fp_end_time := end_time;
    fp_time_step_size_start := step_start; fp_time_stepping_cfl := cfl;
    fp_time_stepping_coef2 := coef2; fp_time_step_tolerance := tolerance;
    fp_time_step_size_max := step_max; fp_time_step_size_min := step_min;
    fp_density_diff := density_diff; fp_viscosity_diff := viscosity_diff;
    fp_surface_tension := surface_tension; fp_gravity := gravity; fp_epsilon := epsilon;
    fp_diffusion_length := diffusion_length; fp_contact_angle := contact_angle;
    fp_pressure_constraint := to_bool pressure_constraint;
    fp_concentration_subdivisions := to_unsigned subdivisions;
    fp_curvature_correction := to_unsigned curv_corr;
    fp_interpolate_grad_onto_pressure := to_bool grad_p;
    fp_surface_tension_from_heaviside := to_bool localize;
    fp_approximate_projections := to_bool approx; fp_ch_do_newton := to_bool ch_newton;
    fp_do_iteration := to_bool full_nl;
    fp_n_reinit_steps := to_unsigned n_reinit;
    fp_n_initial_reinit_steps := to_unsigned n_init_reinit;
    fp_convection_stabilization := to_bool conv_stab |}.

(** [s.substr(s.find_last_of(".") + 1)]: the part after the last dot; npos + 1 = 0, i.e. the whole
    string if there is no dot *)
Fixpoint after_last_dot (s : string) : string :=
  match s with
  | EmptyString => EmptyString
  | String c t =>
      if existsb (Ascii.eqb ".") (list_ascii_of_string t) then after_last_dot t
      else if Ascii.eqb c "." then t else s
  end.

(** The file system: [None] = the file cannot be opened; otherwise the assignments deal.II's
    reader finds ([None] = syntax error). *)
Definition filesystem := string -> option (option pfile).

(** parameters.cc:423-448 [parse_parameters(file, prm)]: errors while reading are replaced by one
    message; errors of the second phase propagate *)
Definition parse_file (fs : filesystem) (name : string) : result flow_params :=
  let read (skip : bool) : result db :=
    match fs name with
    | Some (Some f) => _ <- check_entries skip f;; Ok (read_db f)
    | _ => Err (ExcMessage "syntax or open error")
    end in
  let first :=
    if String.eqb (after_last_dot name) "json" then read true
    else if String.eqb (after_last_dot name) "prm" then read false
    else Err (ExcMessage "Parameterhandler cannot handle current file") in
  match first with
  | Err _ => Err (ExcMessage "Invalid input parameter file.")
  | Ok d => parse_parameters d
  end.

(** parameters.cc:32-38 constructor, with 42-58 [check_for_file] *)
Definition construct (fs : filesystem) (name : string) : result flow_params :=
  match fs name with
  | None => Err (ExcMessage "Input parameter file not found")
  | Some _ => parse_file fs name
  end.

End Params.
Arguments value : clear implicits.
Arguments flow_params : clear implicits.
Arguments db : clear implicits.
Arguments pfile : clear implicits.
Arguments filesystem : clear implicits.
