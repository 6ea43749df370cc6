(** * Property theorems C11 - C13, C51: reading parameter files

    Vocabulary: [construct fs name] is the constructor [FlowParameters(name)] in a file system [fs];
    [read_db f k] is the value of entry [k]: the last assignment in the file, otherwise the declared
    default.  [positive]/[nonneg] are the C++ comparisons [x > 0.] / [x >= 0.]. *)
From Coq Require Import ZArith QArith Reals Bool List String Ascii Lia Lra.
From Verif Require Import Num Model_TimeStepping Model_Parameters Spec_Parameters Proofs_Parameters.
Import ListNotations.
Open Scope string_scope.

(** a concrete parameter file used to show that the hypotheses can be met *)
Definition ex_file : pfile FNum :=
  [("Navier-Stokes/physical type", VText "stokes"); ("Navier-Stokes/density", VDouble (N:=FNum) (Fof_Z 3));
   ("Two phase/density", VDouble (N:=FNum) (Fof_Z 7)); ("Two phase/density difference", VDouble (N:=FNum) (Fof_Z 1));
   ("Navier-Stokes/velocity degree", VInt 4); ("Time stepping/step size", VDouble (N:=FNum) (Fof_Q (1#20)));
   ("Two phase/viscosity", VDouble (N:=FNum) (Fof_Z 2)); ("Output options/output vtk files", VInt 7)].
Definition ex_fs : filesystem FNum := fun n =>
  if String.eqb n "run.2/flow.prm" then Some (Some ex_file) else None.
Definition ok {A} (r : result A) : bool := match r with Ok _ => true | _ => false end.
Example ex_fs_accepted : ok (construct ex_fs "run.2/flow.prm") = true.
Proof. vm_compute. reflexivity. Qed.

(** ** C11 *)
Theorem C11_density_and_viscosity_selection :
  forall (N : Num) (fs : filesystem N) (name : string) (fp : flow_params N),
    construct fs name = Ok fp ->
    exists f type rho_ns rho_tp rho_diff mu_ns mu_tp,
      fs name = Some (Some f) /\
      read_db f "Navier-Stokes/physical type" = Some (VText type) /\
      read_db f "Navier-Stokes/density" = Some (VDouble rho_ns) /\
      read_db f "Two phase/density" = Some (VDouble rho_tp) /\
      read_db f "Two phase/density difference" = Some (VDouble rho_diff) /\
      read_db f "Navier-Stokes/viscosity" = Some (VDouble mu_ns) /\
      read_db f "Two phase/viscosity" = Some (VDouble mu_tp) /\
      (type = "stokes" -> fp_density fp = nlit (0#1) /\ fp_density_diff fp = nlit (0#1)) /\
      (type <> "stokes" -> fp_density_diff fp = rho_diff /\
         (positive rho_tp = true -> fp_density fp = rho_tp) /\
         (positive rho_tp = false -> fp_density fp = rho_ns)) /\
      (positive mu_tp = true -> fp_viscosity fp = mu_tp) /\
      (positive mu_tp = false -> fp_viscosity fp = mu_ns).
Proof.
  intros N fs name fp H. destruct (construct_inv fs name fp H) as (f & skip & A & B & C & _).
  destruct (parse_spec _ _ C) as (t & a & b & c & d & e & G1 & G2 & G3 & G4 & G5 & G6 & D1 & D2 & D3).
  exists f, t, a, b, c, d, e.
  unfold get_text, get_double in *.
  destruct (read_db f "Navier-Stokes/physical type") as [[]|]; try discriminate.
  destruct (read_db f "Navier-Stokes/density") as [[]|]; try discriminate.
  destruct (read_db f "Two phase/density") as [[]|]; try discriminate.
  destruct (read_db f "Two phase/density difference") as [[]|]; try discriminate.
  destruct (read_db f "Navier-Stokes/viscosity") as [[]|]; try discriminate.
  destruct (read_db f "Two phase/viscosity") as [[]|]; try discriminate.
  inversion G1; inversion G2; inversion G3; inversion G4; inversion G5; inversion G6; subst.
  do 7 (split; [first [assumption|reflexivity]|]).
  rewrite D1, D2, D3. destruct (String.eqb_spec t "stokes") as [->|Hn].
  - split; [auto|]. split; [intros X; contradiction|]. split; intros ->; reflexivity.
  - split; [intros X; contradiction|]. split; [intros _; split; [reflexivity|]; split; intros ->; reflexivity|].
    split; intros ->; reflexivity.
Qed.
Print Assumptions C11_density_and_viscosity_selection.

(** ** C12 *)
Theorem C12_accepted_parameters_are_consistent_partial :
  forall (fs : filesystem RNum) (name : string) (fp : flow_params RNum),
    construct fs name = Ok fp ->
    (2 <= fp_velocity_degree fp)%Z /\ (0 <= fp_print_solution_fields fp <= 2)%Z /\
    (0 <= fp_tau_grad_div fp)%R /\ (0 < fp_epsilon fp)%R /\ (0 < fp_diffusion_length fp)%R /\
    (fp_time_step_size_min fp <= fp_time_step_size_start fp)%R /\
    exists f degree smin smax,
      fs name = Some (Some f) /\
      read_db f "Navier-Stokes/velocity degree" = Some (VInt degree) /\
      read_db f "Time stepping/min step size" = Some (VDouble smin) /\
      read_db f "Time stepping/max step size" = Some (VDouble smax) /\
      ((0 <= degree)%Z -> fp_velocity_degree fp = degree) /\
      ((smin <= fp_time_step_size_start fp)%R ->
         fp_time_step_size_min fp = smin /\ fp_time_step_size_max fp = smax) /\
      ((fp_time_step_size_start fp < smin)%R ->
         fp_time_step_size_min fp = fp_time_step_size_start fp /\
         fp_time_step_size_max fp = fp_time_step_size_start fp).
Proof.
  intros fs name fp H. destruct (construct_inv fs name fp H) as (f & skip & A & B & C & _).
  destruct (parse_constraints _ _ C) as (deg & vtk & tau & eps & dl & smin & ss & smax & G1 & G2 & G3 & G4
    & G5 & G6 & G7 & G8 & E1 & E2 & E3 & E4 & E5 & E6 & E7 & E8 & E9 & E10 & E11 & E12).
  assert (I : (-2147483648 <= deg <= 2147483647)%Z).
  { destruct (get_int_ok skip f "Navier-Stokes/velocity degree" _ B eq_refl) as (z & Z1 & Z2).
    rewrite G1 in Z1. inversion Z1; subst; auto. }
  rewrite E3, E4, E6, E8, E10, E11, E12.
  unfold nonneg, positive in *. rnum. unfold Q2R in *; cbn [Qnum Qden] in *.
  split; [exact E2|]. split.
  { unfold to_unsigned. destruct (Z.ltb_spec 2 (vtk mod 4294967296)); [lia|].
    pose proof (Z.mod_pos_bound vtk 4294967296). lia. }
  split. { apply orb_true_iff in E5 as [E5|E5]; [apply Rltb_true in E5|apply Reqb_true in E5]; lra. }
  apply Rltb_true in E7, E9.
  split; [lra|]. split; [lra|]. split; [rcase; lra|].
  exists f, deg, smin, smax.
  unfold get_integer, get_double in *.
  destruct (read_db f "Navier-Stokes/velocity degree") as [[]|]; try discriminate.
  destruct (read_db f "Time stepping/min step size") as [[]|]; try discriminate.
  destruct (read_db f "Time stepping/max step size") as [[]|]; try discriminate.
  inversion G1; inversion G6; inversion G8; subst.
  do 4 (split; [first [assumption|reflexivity]|]).
  split. { intros Hd. rewrite E1. unfold to_unsigned. apply Z.mod_small. lia. }
  split; intros Hs; destruct (Rltb_spec (fp_time_step_size_start fp) smin) as [L|L]; auto.
  - rnum. exfalso. lra.
  - rnum. exfalso. lra.
Qed.
Print Assumptions C12_accepted_parameters_are_consistent_partial.

(** the enumerations are the ones named in the file *)
Theorem C12_enumerations :
  forall (N : Num) (fs : filesystem N) (name : string) (fp : flow_params N),
    construct fs name = Ok fp ->
    exists f, fs name = Some (Some f) /\
      read_db f "Navier-Stokes/physical type" = Some (VText
        match fp_physical_type fp with stokes => "stokes" | incompressible => "incompressible"
        | incompressible_stationary => "incompressible stationary" end) /\
      read_db f "Navier-Stokes/Solver/linearization scheme" = Some (VText
        match fp_linearization fp with
        | coupled_implicit_newton => "coupled implicit Newton"
        | coupled_implicit_picard => "coupled implicit Picard"
        | coupled_velocity_semi_implicit => "coupled velocity semi-implicit"
        | coupled_velocity_explicit => "coupled velocity explicit"
        | projection => "projection" end) /\
      read_db f "Navier-Stokes/Solver/lin velocity preconditioner" = Some (VText
        match fp_precondition_velocity fp with u_ilu => "ilu" | u_ilu_scalar => "ilu scalar"
        | u_amg_linear => "amg linear" | u_amg => "amg" end) /\
      read_db f "Navier-Stokes/Solver/lin pressure mass preconditioner" = Some (VText
        match fp_precondition_pressure fp with p_mass_ilu => "ilu" | p_mass_diag => "diagonal" end) /\
      read_db f "Time stepping/scheme" = Some (VText
        match fp_time_step_scheme fp with implicit_euler => "implicit_euler"
        | explicit_euler => "explicit_euler" | crank_nicolson => "crank_nicolson"
        | bdf_2 => "bdf_2" end) /\
      (exists form, read_db f "Navier-Stokes/formulation convective term momentum balance"
                    = Some (VText form) /\
         ((form = "conservative" /\ fp_beta fp = nlit (1#1)) \/
          (form = "convective" /\ fp_beta fp = nlit (0#1)) \/
          (form = "skew-symmetric" /\ fp_beta fp = nlit (5#10)))).
Proof. exact @enumerations. Qed.
Print Assumptions C12_enumerations.

(** a file passing the declared patterns is rejected for four reasons only *)
Theorem C12_only_documented_rejections :
  forall (N : Num) (fs : filesystem N) (name : string) (f : pfile N) (skip : bool),
    fs name = Some (Some f) ->
    (skip = true /\ after_last_dot name = "json" \/ skip = false /\ after_last_dot name = "prm") ->
    check_entries skip f = Ok tt ->
    (exists fp, construct fs name = Ok fp) \/
    (exists z, read_db f "Navier-Stokes/velocity degree" = Some (VInt z) /\ (0 <= z <= 1)%Z) \/
    (exists x, read_db f "Navier-Stokes/Solver/tau grad div" = Some (VDouble x) /\ nonneg x = false) \/
    (exists x, read_db f "Two phase/epsilon" = Some (VDouble x) /\ positive x = false) \/
    (exists x, read_db f "Two phase/diffusion length" = Some (VDouble x) /\ positive x = false).
Proof. exact @only_rejections. Qed.
Print Assumptions C12_only_documented_rejections.
Example C12_nonvacuous : check_entries false ex_file = Ok tt /\ after_last_dot "run.2/flow.prm" = "prm".
Proof. split; vm_compute; reflexivity. Qed.

Theorem C12_negative_degree_refuted :
  exists (fs : filesystem FNum) (name : string) (f : pfile FNum) (fp : flow_params FNum),
    fs name = Some (Some f) /\ read_db f "Navier-Stokes/velocity degree" = Some (VInt (-1)) /\
    construct fs name = Ok fp /\ fp_velocity_degree fp = 4294967295%Z.
Proof.
  set (f := [("Navier-Stokes/velocity degree", VInt (-1))] : pfile FNum).
  assert (K : ok (construct (fun _ => Some (Some f)) "a.prm") = true) by (vm_compute; reflexivity).
  destruct (construct (fun _ => Some (Some f)) "a.prm") as [fp|e] eqn:E; [clear K|discriminate K].
  exists (fun _ => Some (Some f)), "a.prm", f, fp.
  split; [reflexivity|]. split; [reflexivity|]. split; [exact E|].
  destruct (construct_inv _ _ _ E) as (f' & skip & A & _ & C & _). inversion A; subst f'.
  destruct (parse_constraints _ _ C) as (deg & ? & ? & ? & ? & ? & ? & ? & G1 & _ & _ & _ & _ & _ & _ & _ & E1 & _).
  vm_compute in G1. inversion G1; subst deg. rewrite E1. vm_compute. reflexivity.
Qed.
Print Assumptions C12_negative_degree_refuted.

(** ** C13 *)
Theorem C13_unsupported_files_are_rejected :
  forall (N : Num) (fs : filesystem N) (name : string) (fp : flow_params N),
    construct fs name = Ok fp ->
    fs name <> None /\
    (name = "json" \/ name = "prm" \/ (exists base, name = base ++ ".json") \/
     (exists base, name = base ++ ".prm")).
Proof.
  intros N fs name fp H. destruct (construct_inv fs name fp H) as (f & skip & A & B & C & D).
  split; [congruence|].
  destruct D as [[_ D]|[_ D]]; apply after_last_dot_iff in D; auto; destruct D as [D|[b D]]; eauto.
Qed.
Print Assumptions C13_unsupported_files_are_rejected.

(** conversely the extension alone never leads to rejection, wherever other dots are *)
Theorem C13_extension_recognised :
  forall base, after_last_dot (base ++ ".json") = "json" /\ after_last_dot (base ++ ".prm") = "prm".
Proof.
  intros b; split; apply after_last_dot_iff; auto; right; exists b; reflexivity.
Qed.
Print Assumptions C13_extension_recognised.

(** ** C51: misspelled entries *)
Theorem C51_undeclared_entry_rejected_partial :
  forall (N : Num) (fs : filesystem N) (base : string) (f : pfile N) k v,
    fs (base ++ ".prm") = Some (Some f) -> In (k, v) f -> declared (N:=N) k = None ->
    forall fp, construct fs (base ++ ".prm") <> Ok fp.
Proof. exact @undeclared_rejected. Qed.
Print Assumptions C51_undeclared_entry_rejected_partial.
Example C51_nonvacuous : declared (N:=FNum) "Two phase/densty" = None.
Proof. reflexivity. Qed.

(** in json files undeclared entries are skipped silently *)
Theorem C51_undeclared_entry_rejected_refuted :
  exists (fs : filesystem FNum) (f : pfile FNum) (fp : flow_params FNum),
    fs "a.json" = Some (Some f) /\ In ("Two phase/densty", VDouble (N:=FNum) (Fof_Z 5)) f /\
    construct fs "a.json" = Ok fp.
Proof.
  set (f := [("Two phase/densty", VDouble (N:=FNum) (Fof_Z 5))] : pfile FNum).
  assert (K : ok (construct (fun _ => Some (Some f)) "a.json") = true) by (vm_compute; reflexivity).
  destruct (construct (fun _ => Some (Some f)) "a.json") as [fp|e] eqn:E; [clear K|discriminate K].
  exists (fun _ => Some (Some f)), f, fp. split; [reflexivity|]. split; [left; reflexivity|exact E].
Qed.
Print Assumptions C51_undeclared_entry_rejected_refuted.

(** ** C76: every member holds the (last) value of its entry in the file, or the documented default
    ([entry], [holds_*] are defined in Spec_Parameters.v; densities, viscosities, step size bounds and
    enumerations are the subject of C11 and C12) *)
Theorem C76_every_member_holds_its_entry :
  forall (N : Num) (fs : filesystem N) (name : string) (fp : flow_params N),
    construct fs name = Ok fp ->
    exists f, fs name = Some (Some f) /\
      holds_unsigned f "Navier-Stokes/dimension" 2 (fp_dimension fp) /\
      holds_unsigned f "Navier-Stokes/global refinements" 1 (fp_global_refinements fp) /\
      holds_unsigned f "Navier-Stokes/adaptive refinements" 0 (fp_adaptive_refinements fp) /\
      holds_unsigned f "Navier-Stokes/velocity degree" 2 (fp_velocity_degree fp) /\
      holds_unsigned f "Navier-Stokes/Solver/NL max iterations" 10 (fp_max_nl_iteration fp) /\
      holds_unsigned f "Navier-Stokes/Solver/lin max iterations" 500 (fp_max_lin_iteration fp) /\
      holds_unsigned f "Navier-Stokes/Solver/lin its before inner solvers" 50 (fp_iterations_before_inner_solvers fp) /\
      holds_unsigned f "Output options/output verbosity" 2 (fp_output_verbosity fp) /\
      holds_unsigned f "Two phase/concentration subdivisions" 2 (fp_concentration_subdivisions fp) /\
      holds_unsigned f "Two phase/curvature correction" 0 (fp_curvature_correction fp) /\
      holds_unsigned f "Two phase/number reinit steps" 2 (fp_n_reinit_steps fp) /\
      holds_unsigned f "Two phase/number initial reinit steps" 0 (fp_n_initial_reinit_steps fp) /\
      holds_positive f "Navier-Stokes/anisotropic refinement" 0 (fp_use_anisotropic_refinement fp) /\
      holds_positive f "Navier-Stokes/simplex mesh" 0 (fp_use_simplex_mesh fp) /\
      holds_positive f "Navier-Stokes/Solver/lin relative tolerance" 1 (fp_rel_lin_iteration fp) /\
      holds_positive f "Output options/output wall times" 0 (fp_output_wall_times fp) /\
      holds_positive f "Output options/output memory" 0 (fp_output_memory fp) /\
      holds_nonzero f "Navier-Stokes/augmented Taylor-Hood elements" 0 (fp_augmented_taylor_hood fp) /\
      holds_nonzero f "Two phase/pressure constraint" 1 (fp_pressure_constraint fp) /\
      holds_nonzero f "Two phase/grad pressure compatible" 0 (fp_interpolate_grad_onto_pressure fp) /\
      holds_nonzero f "Two phase/localize surface tension" 1 (fp_surface_tension_from_heaviside fp) /\
      holds_nonzero f "Two phase/approximate projections" 0 (fp_approximate_projections fp) /\
      holds_nonzero f "Two phase/Cahn-Hilliard do Newton" 1 (fp_ch_do_newton fp) /\
      holds_nonzero f "Two phase/full nonlinear iteration" 0 (fp_do_iteration fp) /\
      holds_nonzero f "Two phase/convection stabilization" 0 (fp_convection_stabilization fp) /\
      entry f "Navier-Stokes/Solver/tau grad div" (VDouble (nlit (0 # 1))) = VDouble (fp_tau_grad_div fp) /\
      entry f "Navier-Stokes/Solver/NL tolerance" (VDouble (nlit (1 # 1000000))) = VDouble (fp_tol_nl_iteration fp) /\
      entry f "Navier-Stokes/Solver/lin tolerance" (VDouble (nlit (1 # 1000))) = VDouble (fp_tol_lin_iteration fp) /\
      entry f "Output options/output frequency" (VDouble (nlit (1 # 1))) = VDouble (fp_output_frequency fp) /\
      entry f "Two phase/viscosity difference" (VDouble (nlit (0 # 1))) = VDouble (fp_viscosity_diff fp) /\
      entry f "Two phase/surface tension" (VDouble (nlit (1 # 1))) = VDouble (fp_surface_tension fp) /\
      entry f "Two phase/epsilon" (VDouble (nlit (1 # 1))) = VDouble (fp_epsilon fp) /\
      entry f "Two phase/gravity" (VDouble (nlit (0 # 1))) = VDouble (fp_gravity fp) /\
      entry f "Two phase/diffusion length" (VDouble (nlit (1 # 10))) = VDouble (fp_diffusion_length fp) /\
      entry f "Two phase/contact angle" (VDouble (nlit (0 # 1))) = VDouble (fp_contact_angle fp) /\
      entry f "Time stepping/start time" (VDouble (nlit (0 # 1))) = VDouble (fp_start_time fp) /\
      entry f "Time stepping/end time" (VDouble (nlit (1 # 1))) = VDouble (fp_end_time fp) /\
      entry f "Time stepping/step size" (VDouble (nlit (1 # 100))) = VDouble (fp_time_step_size_start fp) /\
      entry f "Time stepping/CFL number" (VDouble (nlit (4 # 5))) = VDouble (fp_time_stepping_cfl fp) /\
      entry f "Time stepping/CFL number capillary" (VDouble (nlit (10 # 1))) = VDouble (fp_time_stepping_coef2 fp) /\
      entry f "Time stepping/tolerance" (VDouble (nlit (1 # 100))) = VDouble (fp_time_step_tolerance fp) /\
      entry f "Output options/output filename" (VText "") = VText (fp_output_filename fp) /\
      (exists x, entry f "Navier-Stokes/damping" (VDouble (nlit (0 # 1))) = VDouble x /\ fp_damping fp = nopp x) /\
      (exists z, entry f "Output options/output vtk files" (VInt 0) = VInt z /\
        fp_print_solution_fields fp = if ((0 <=? z) && (z <=? 2))%Z then z else 1%Z).
Proof. exact @every_member. Qed.
Print Assumptions C76_every_member_holds_its_entry.
Example C76_nonvacuous :
  entry (ex_file ++ [("Navier-Stokes/velocity degree", VInt 3)])%list "Navier-Stokes/velocity degree" (VInt 2)
    = VInt (N:=FNum) 3 /\ entry (N:=FNum) ex_file "Navier-Stokes/dimension" (VInt 2) = VInt 2 /\
  ok (construct ex_fs "run.2/flow.prm") = true.
Proof. split; [reflexivity|]. split; [reflexivity|exact ex_fs_accepted]. Qed.

(** the values of C11 and C12 are those of the last assignment (or the declared default), too *)
Theorem C76_read_value :
  forall (N : Num) (f : pfile N) k d p, declared k = Some (d, p) -> read_db f k = Some (entry f k d).
Proof. exact read_db_entry. Qed.
Print Assumptions C76_read_value.
(** the documented defaults of the entries of C11 and C12 *)
Theorem C76_defaults :
  forall N : Num,
    declared (N:=N) "Navier-Stokes/density" = Some (VDouble (nlit (1#1)), PDouble) /\
    declared (N:=N) "Navier-Stokes/viscosity" = Some (VDouble (nlit (1#1)), PDouble) /\
    declared (N:=N) "Two phase/density" = Some (VDouble (nlit (-1#1)), PDouble) /\
    declared (N:=N) "Two phase/density difference" = Some (VDouble (nlit (0#1)), PDouble) /\
    declared (N:=N) "Two phase/viscosity" = Some (VDouble (nlit (-1#1)), PDouble) /\
    declared (N:=N) "Time stepping/max step size" = Some (VDouble (nlit (1#1)), PDouble) /\
    declared (N:=N) "Time stepping/min step size" = Some (VDouble (nlit (1#10)), PDouble) /\
    read_db (N:=N) [] "Navier-Stokes/physical type" = Some (VText "incompressible") /\
    read_db (N:=N) [] "Navier-Stokes/Solver/linearization scheme" = Some (VText "coupled implicit Newton") /\
    read_db (N:=N) [] "Navier-Stokes/Solver/lin velocity preconditioner" = Some (VText "amg linear") /\
    read_db (N:=N) [] "Navier-Stokes/Solver/lin pressure mass preconditioner" = Some (VText "ilu") /\
    read_db (N:=N) [] "Navier-Stokes/formulation convective term momentum balance" = Some (VText "skew-symmetric") /\
    read_db (N:=N) [] "Time stepping/scheme" = Some (VText "bdf_2").
Proof. intros N. repeat (split; [reflexivity|]). reflexivity. Qed.
Print Assumptions C76_defaults.
