(** * C127: a run of the flow solver with hanging nodes, periodic boundaries and symmetry planes *)
From Coq Require Import Reals List Bool Arith ZArith Lra Lia.
From Coq Require Import FunctionalExtensionality.
From Verif Require Import Num SumR Model_Parameters Model_TimeStepping Spec_TimeStepping Proofs_TimeStepping Proofs_TimeStepping2.
From Verif Require Import Model_NonlinearSolver Properties_NonlinearSolver Model_NSOperator Properties_NSOperator.
From Verif Require Import Model_BoundaryValues Properties_BoundaryValues Model_Run Properties_Run Properties_Energy Model_HangingRun.
Import ListNotations.
Open Scope R_scope.

(** ** Specification *)
Section Spec.
Context {point : Type}.
Variable h : hproblem point.
Notation pb := (h_pb h).
(** all unknowns and masters are unknowns of the problem *)
Definition in_range : Prop :=
  (forall i mw, (i < pb_nu pb)%nat -> In mw (expand (lines_u h) i) -> (fst mw < pb_nu pb)%nat) /\
  (forall i mw, (i < pb_np pb)%nat -> In mw (expand (h_p h) i) -> (fst mw < pb_np pb)%nat) /\
  (forall f a, In f (pb_ofaces pb) -> (a < of_n f)%nat -> (of_dof f a < pb_nu pb)%nat).
(** power of the forces in a virtual velocity V (virtual pressure Q): user's force minus external pressure minus inertia minus stress *)
Definition external_power (time : R) (V : vec) : R :=
  suml (pb_ofaces pb) (fun f => match pb_open pb (of_id f) with
    | Some p => suml (of_pts f) (fun q => fq_JxW q * (p time (fq_pos q) * normal_velocity (pb_dim pb) f V q)) | None => 0 end).
Definition inner_power (dudt conv : site -> nat -> R) (x : field) (V : vec) : R :=
  suml (pb_sites pb) (fun s => st_JxW s *
    (sumn (pb_dim pb) (fun d => (st_rho s * (dudt s d + conv s d) - st_damping s * velocity_at pb (fst x) s d) * velocity_at pb V s d)
     + 2 * st_mu s * sumn (pb_dim pb) (fun d => sumn (pb_dim pb) (fun e => sym (gradient_at pb (fst x) s) d e * sym (gradient_at pb V s) d e))
     + (fp_tau_grad_div (pb_fp pb) * divergence_at pb (fst x) s - pressure_at pb (snd x) s) * divergence_at pb V s)).
Definition volume_defect (x : field) (Q : vec) : R := suml (pb_sites pb) (fun s => st_JxW s * (divergence_at pb (fst x) s * pressure_at pb Q s)).
Definition virtual_power (time : R) (dudt conv : site -> nat -> R) (user x : field) (V Q : vec) : R :=
  sumn (pb_nu pb) (fun i => fst user i * V i) - external_power time V - inner_power dudt conv x V
  + (sumn (pb_np pb) (fun i => snd user i * Q i) + volume_defect x Q).
(** admissible test functions: continuous across hanging nodes, periodic, tangential to symmetry planes, zero at Dirichlet unknowns; the
    pressure continuous and without the modes the projection removes *)
Definition admissible (V Q : vec) : Prop :=
  fulfils (lines_u h) V /\ fulfils (h_p h) Q /\
  forall m, pb_m0 pb = Some m \/ pb_m1 pb = Some m -> sumn (pb_np pb) (fun i => mode_vector m i * Q i) = 0.
Definition magnitude (V Q : vec) : R := sqrt (sumn (pb_nu pb) (fun i => V i ^ 2) + sumn (pb_np pb) (fun i => Q i ^ 2)).
(** the same for the unknowns without a constraint *)
Definition free_magnitude (V Q : vec) : R :=
  sqrt (sumn (pb_nu pb) (fun i => if is_free (lines_u h) i then V i ^ 2 else 0) + sumn (pb_np pb) (fun i => if is_free (h_p h) i then Q i ^ 2 else 0)).
(** the pressure that is added to fix the level does no work on admissible velocities *)
Definition level_is_force_free : Prop := forall m V, pb_fix pb = true -> pb_m0 pb = Some m -> fulfils (lines_u h) V ->
  suml (pb_sites pb) (fun s => st_JxW s * (pressure_at pb (distribute (h_p h) (mode_vector m)) s * divergence_at pb V s)) = 0.
End Spec.

(** ** Linear constraints *)
Lemma distribute_fulfils (con : lines) (v : vec) : closed con -> fulfils con (distribute con v).
Proof.
  intros C i l H. unfold distribute at 1. rewrite H. apply suml_ext. intros [m w] Hin. cbn [fst snd]. unfold distribute. rewrite (C i l m w H Hin). reflexivity.
Qed.
Lemma fulfils_lin (con : lines) (u v : vec) a b : fulfils con u -> fulfils con v -> fulfils con (fun i => u i * a + v i * b).
Proof.
  intros U V i l H. rewrite (U i l H), (V i l H).
  rewrite (suml_ext l (fun mw => snd mw * (u (fst mw) * a + v (fst mw) * b)) (fun mw => a * (snd mw * u (fst mw)) + b * (snd mw * v (fst mw)))) by (intros; ring).
  rewrite suml_plus, !suml_scal. ring.
Qed.
Lemma fulfils_add (con : lines) (u v : vec) : fulfils con u -> fulfils con v -> fulfils con (fun i => u i + v i).
Proof. intros U V i l H. rewrite (U i l H), (V i l H), <- suml_plus. apply suml_ext. intros; ring. Qed.
Lemma fulfilled_distribute (con : lines) (u : vec) : fulfils con u -> distribute con u = u.
Proof. intros U. apply functional_extensionality. intros i. unfold distribute. destruct (con i) as [l|] eqn:E; [symmetry; apply U, E|reflexivity]. Qed.
Lemma distribute_shift (con : lines) (u v : vec) a : fulfils con u -> distribute con (fun i => u i + a * v i) = (fun i => u i + a * distribute con v i).
Proof.
  intros U. apply functional_extensionality. intros i. unfold distribute. destruct (con i) as [l|] eqn:E; [|reflexivity].
  rewrite (U i l E), <- suml_scal, <- suml_plus. apply suml_ext. intros; ring.
Qed.
Lemma lines_u_closed {point} (h : hproblem point) : closed (h_u h) -> closed (lines_u h).
Proof.
  intros C i l m w. unfold lines_u, constraints_u. destruct (h_u h i) as [l0|] eqn:E.
  - intros [= <-] Hin. apply filter_In in Hin as [Hin F]. cbn [fst] in F. rewrite (C i l0 m w E Hin). unfold is_free in F. rewrite (C i l0 m w E Hin) in F.
    destruct (on_dirichlet _ _ m); [discriminate F|reflexivity].
  - destruct (on_dirichlet _ _ i); [|discriminate]. intros [= <-] [].
Qed.
(** velocities that fulfil the constraints of the update fulfil the hanging node constraints *)
Lemma update_fulfils {point} (h : hproblem point) x : closed (h_u h) -> fulfils (h_u h) (distribute (lines_u h) x).
Proof. intros C i l H. apply (update_hanging _ _ _ _ _ _ C H). Qed.

Lemma condense_tested n (con : lines) (raw V : vec) : fulfils con V -> (forall i mw, (i < n)%nat -> In mw (expand con i) -> (fst mw < n)%nat) ->
  sumn n (fun g => condense n con raw g * V g) = sumn n (fun i => raw i * V i).
Proof.
  intros F R. unfold condense.
  rewrite (sumn_ext n _ (fun g => sumn n (fun i => V g * suml (expand con i) (fun mw => if Nat.eqb (fst mw) g then snd mw * raw i else 0)))).
  2: { intros g _. rewrite sumn_scal. ring. }
  rewrite sumn_swap. apply sumn_ext. intros i Hi. rewrite suml_delta_list by (intros mw; apply (R i mw Hi)). rewrite expand_fulfils by exact F. reflexivity.
Qed.
Lemma without_mean_tested n (m : option mode) (v Q : vec) : (forall k, m = Some k -> sumn n (fun i => mode_vector k i * Q i) = 0) ->
  sumn n (fun i => project_mode n m v i * Q i) = sumn n (fun i => v i * Q i).
Proof.
  intros H. destruct m as [k|]; [|reflexivity]. cbn [project_mode]. set (a := - dot n (mode_weights k) v * mode_inverse k).
  rewrite (sumn_ext n _ (fun i => v i * Q i + a * (mode_vector k i * Q i))) by (intros; ring). rewrite sumn_plus, sumn_scal, (H k eq_refl). ring.
Qed.

(** ** The residual as a functional on admissible test functions *)
Section Residual.
Context {point : Type}.
Variable h : hproblem point.
Notation pb := (h_pb h).
Lemma tested_raw_momentum time dudt conv (x : field) (V : vec) :
  sumn (pb_nu pb) (fun i => momentum_defect (without_constraints pb) time dudt conv (fun _ => 0) x i * V i) = - inner_power h dudt conv x V.
Proof.
  unfold momentum_defect, inner_power. change (pb_sites (without_constraints pb)) with (pb_sites pb). change (pb_dim (without_constraints pb)) with (pb_dim pb).
  change (pb_fp (without_constraints pb)) with (pb_fp pb). change (velocity_at (without_constraints pb)) with (velocity_at pb).
  change (gradient_at (without_constraints pb)) with (gradient_at pb). change (divergence_at (without_constraints pb)) with (divergence_at pb).
  change (pressure_at (without_constraints pb)) with (pressure_at pb). change (test_divergence (without_constraints pb)) with (test_divergence pb).
  rewrite (sumn_ext _ _ (fun i => - suml (pb_sites pb) (fun s => V i * (st_JxW s *
    (sumn (pb_dim pb) (fun d => (st_rho s * (dudt s d + conv s d) - st_damping s * velocity_at pb (fst x) s d) * st_phi s i d)
     + 2 * st_mu s * sumn (pb_dim pb) (fun d => sumn (pb_dim pb) (fun e => sym (gradient_at pb (fst x) s) d e * sym (st_dphi s i) d e))
     + (fp_tau_grad_div (pb_fp pb) * divergence_at pb (fst x) s - pressure_at pb (snd x) s) * test_divergence pb s i))))).
  2: { intros i _. rewrite suml_scal. unfold external_load. cbn [without_constraints pb_ofaces suml]. ring. }
  rewrite sumn_opp, <- suml_sumn. f_equal. apply suml_ext. intros s _.
  rewrite (sumn_ext _ _ (fun i => st_JxW s *
    (sumn (pb_dim pb) (fun d => (st_rho s * (dudt s d + conv s d) - st_damping s * velocity_at pb (fst x) s d) * (V i * st_phi s i d))
     + 2 * st_mu s * sumn (pb_dim pb) (fun d => sumn (pb_dim pb) (fun e => sym (gradient_at pb (fst x) s) d e * (V i * sym (st_dphi s i) d e)))
     + (fp_tau_grad_div (pb_fp pb) * divergence_at pb (fst x) s - pressure_at pb (snd x) s) * (V i * test_divergence pb s i)))).
  2: { intros i _.
       assert (A : sumn (pb_dim pb) (fun d => (st_rho s * (dudt s d + conv s d) - st_damping s * velocity_at pb (fst x) s d) * (V i * st_phi s i d))
                   = V i * sumn (pb_dim pb) (fun d => (st_rho s * (dudt s d + conv s d) - st_damping s * velocity_at pb (fst x) s d) * st_phi s i d)).
       { rewrite <- sumn_scal. apply sumn_ext. intros. ring. }
       assert (B : sumn (pb_dim pb) (fun d => sumn (pb_dim pb) (fun e => sym (gradient_at pb (fst x) s) d e * (V i * sym (st_dphi s i) d e)))
                   = V i * sumn (pb_dim pb) (fun d => sumn (pb_dim pb) (fun e => sym (gradient_at pb (fst x) s) d e * sym (st_dphi s i) d e))).
       { rewrite <- sumn_scal. apply sumn_ext. intros d _. rewrite <- sumn_scal. apply sumn_ext. intros. ring. }
       rewrite A, B. ring. }
  rewrite sumn_scal, !sumn_plus, !sumn_scal. f_equal. f_equal; [f_equal|].
  - rewrite sumn_swap. apply sumn_ext. intros d _. rewrite sumn_scal. reflexivity.
  - f_equal. rewrite sumn_swap. apply sumn_ext. intros d _. rewrite sumn_swap. apply sumn_ext. intros e _. rewrite sumn_scal. f_equal.
    unfold sym, gradient_at. rewrite <- sumn_plus. unfold Rdiv. rewrite <- sumn_scal_r. apply sumn_ext. intros. ring.
  - f_equal. unfold test_divergence, divergence_at, gradient_at. rewrite (sumn_ext _ _ (fun i => sumn (pb_dim pb) (fun d => V i * st_dphi s i d d))) by (intros; rewrite sumn_scal; reflexivity).
    apply sumn_swap.
Qed.
Lemma tested_raw_continuity (x : field) (Q : vec) :
  sumn (pb_np pb) (fun i => continuity_defect (without_constraints pb) (fun _ => 0) x i * Q i) = volume_defect h x Q.
Proof.
  unfold continuity_defect, volume_defect. cbn [without_constraints pb_con_p pb_sites]. change (divergence_at (without_constraints pb)) with (divergence_at pb).
  rewrite (sumn_ext _ _ (fun i => suml (pb_sites pb) (fun s => st_JxW s * divergence_at pb (fst x) s * (Q i * st_psi s i)))).
  2: { intros i _. rewrite Rplus_0_l, <- Rmult_comm, <- suml_scal. apply suml_ext. intros. ring. }
  rewrite <- suml_sumn. apply suml_ext. intros s _. rewrite sumn_scal. unfold pressure_at. ring.
Qed.
(** the residual of the code tested with an admissible function is the virtual power *)
Lemma residual_tested (c : clock RNum) (user old oo x : field) (V Q : vec) :
  tau1 c = 1 -> fp_physical_type (pb_fp pb) = incompressible -> is_proj (fp_linearization (pb_fp pb)) = false ->
  in_range h -> admissible h V Q ->
  let r := system_rhs_h h c user old oo x in
  sumn (pb_nu pb) (fun g => fst r g * V g) + sumn (pb_np pb) (fun g => snd r g * Q g) =
  virtual_power h (now c) (weighted pb c (fst x) (fst old) (fst oo)) (convective_with pb (convecting c (fst old) (fst oo)) (fst x)) user x V Q.
Proof.
  intros Ht Hi Hp (R1 & R2 & R3) (FV & FQ & O) r.
  destruct (system_rhs_form (without_constraints pb) c field_zero old oo x Ht Hi Hp) as [A B].
  unfold r, system_rhs_h. clear r. cbn [fst snd]. unfold virtual_power. f_equal.
  - rewrite (sumn_ext _ _ (fun g => fst user g * V g - V g * const_rhs_h h (now c) g + condense (pb_nu pb) (lines_u h) (fst (cell_terms h c old oo x)) g * V g)) by (intros; ring).
    rewrite sumn_plus, sumn_minus, (condense_tested _ _ _ _ FV R1). unfold const_rhs_h. rewrite (C88_virtual_work _ _ _ _ _ _ V _ FV).
    2: { intros f a mw Hf Ha. apply R1, (R3 f a Hf Ha). }
    unfold external_power. rewrite (sumn_ext _ (fun i => fst (cell_terms h c old oo x) i * V i)
      (fun i => momentum_defect (without_constraints pb) (now c) (weighted pb c (fst x) (fst old) (fst oo)) (convective_with pb (convecting c (fst old) (fst oo)) (fst x)) (fun _ => 0) x i * V i)).
    + rewrite tested_raw_momentum. ring.
    + intros i _. f_equal. unfold cell_terms. rewrite A. change (dirichlet_dof (without_constraints pb) i) with false. cbv iota. reflexivity.
  - unfold average_projection. cbn [s_lin s_type setting_at n_p]. rewrite Hp, Hi. cbn [negb andb is_stationary_type].
    rewrite without_mean_tested by (intros k Hk; apply O; right; exact Hk). rewrite without_mean_tested by (intros k Hk; apply O; left; exact Hk).
    rewrite (sumn_ext _ _ (fun g => snd user g * Q g + condense (pb_np pb) (h_p h) (snd (cell_terms h c old oo x)) g * Q g)) by (intros; ring).
    rewrite sumn_plus, (condense_tested _ _ _ _ FQ R2). f_equal. rewrite <- tested_raw_continuity. apply sumn_ext. intros i _. f_equal. unfold cell_terms. rewrite B. reflexivity.
Qed.
Lemma residual_bounds (c : clock RNum) (user old oo x : field) (V Q : vec) :
  tau1 c = 1 -> fp_physical_type (pb_fp pb) = incompressible -> is_proj (fp_linearization (pb_fp pb)) = false ->
  in_range h -> admissible h V Q ->
  Rabs (virtual_power h (now c) (weighted pb c (fst x) (fst old) (fst oo)) (convective_with pb (convecting c (fst old) (fst oo)) (fst x)) user x V Q)
  <= compute_residual_h h c user old oo x * magnitude h V Q.
Proof.
  intros Ht Hi Hp R Ad. rewrite <- (residual_tested c user old oo x V Q Ht Hi Hp R Ad). unfold compute_residual_h. rewrite norm_of_parts. unfold magnitude.
  set (r := system_rhs_h h c user old oo x). apply Rabs_le. split.
  - assert (K := two_block_cs (pb_nu pb) (pb_np pb) (fun i => - fst r i) V (fun i => - snd r i) Q).
    assert (E1 : forall n (a b : vec), sumn n (fun i => - a i * b i) = - sumn n (fun i => a i * b i)) by (intros; rewrite <- sumn_opp; apply sumn_ext; intros; ring).
    assert (E2 : forall n (a : vec), sumn n (fun i => (- a i) ^ 2) = sumn n (fun i => a i ^ 2)) by (intros; apply sumn_ext; intros; ring).
    rewrite (E1 _ (fst r) V), (E1 _ (snd r) Q), (E2 _ (fst r)), (E2 _ (snd r)) in K. lra.
  - apply two_block_cs.
Qed.
(** and the residual is itself the value for some admissible functions *)
Lemma residual_attained (c : clock RNum) (user old oo x : field) :
  tau1 c = 1 -> fp_physical_type (pb_fp pb) = incompressible -> is_proj (fp_linearization (pb_fp pb)) = false ->
  in_range h -> closed (h_u h) -> closed (h_p h) -> pb_m0 pb = None -> pb_m1 pb = None ->
  (forall i, is_free (lines_u h) i = false -> fst user i = 0) -> (forall i, is_free (h_p h) i = false -> snd user i = 0) ->
  exists V Q, admissible h V Q /\ free_magnitude h V Q = compute_residual_h h c user old oo x /\
  virtual_power h (now c) (weighted pb c (fst x) (fst old) (fst oo)) (convective_with pb (convecting c (fst old) (fst oo)) (fst x)) user x V Q
  = compute_residual_h h c user old oo x * compute_residual_h h c user old oo x.
Proof.
  intros Ht Hi Hp R Cu Cp M0 M1 Uu Up. set (r := system_rhs_h h c user old oo x).
  assert (CL := lines_u_closed h Cu).
  assert (Ad : admissible h (distribute (lines_u h) (fst r)) (distribute (h_p h) (snd r))).
  { split; [apply distribute_fulfils, CL|]. split; [apply distribute_fulfils, Cp|]. intros m [Hm|Hm]; congruence. }
  exists (distribute (lines_u h) (fst r)), (distribute (h_p h) (snd r)). split; [exact Ad|].
  assert (Cz : forall n (con : lines) raw g, closed con -> is_free con g = false -> condense n con raw g = 0).
  { intros n con raw g C Fg. unfold condense. apply sumn_zero. intros i _. apply suml_zero. intros [m w] Hin. cbn [fst snd]. destruct (Nat.eqb_spec m g) as [->|]; [|reflexivity].
    exfalso. unfold is_free in Fg. unfold expand in Hin. destruct (con i) as [l|] eqn:E; [rewrite (C i l g w E Hin) in Fg; discriminate Fg|].
    destruct Hin as [Hin|[]]. injection Hin as -> _. rewrite E in Fg. discriminate Fg. }
  assert (Ru : forall g, is_free (lines_u h) g = false -> fst r g = 0).
  { intros g Fg. unfold r, system_rhs_h. cbn [fst]. rewrite (Cz _ _ _ _ CL Fg), (Uu g Fg). unfold const_rhs_h. rewrite C88_constrained_rows; [ring|exact CL|].
    unfold is_free in Fg. destruct (lines_u h g); [discriminate|discriminate Fg]. }
  assert (Rp : forall g, is_free (h_p h) g = false -> snd r g = 0).
  { intros g Fg. unfold r, system_rhs_h. cbn [snd]. unfold average_projection. rewrite M0, M1.
    destruct (_ && _); cbn [project_mode]; rewrite (Cz _ _ _ _ Cp Fg), (Up g Fg); ring. }
  assert (Q : compute_residual_h h c user old oo x = sqrt (sumn (pb_nu pb) (fun i => fst r i ^ 2) + sumn (pb_np pb) (fun i => snd r i ^ 2))) by (unfold compute_residual_h; apply norm_of_parts).
  split.
  - rewrite Q. unfold free_magnitude. f_equal. f_equal; apply sumn_ext; intros i _; unfold distribute.
    + destruct (is_free (lines_u h) i) eqn:E; [|rewrite (Ru i E); ring]. unfold is_free in E. destruct (lines_u h i); [discriminate E|reflexivity].
    + destruct (is_free (h_p h) i) eqn:E; [|rewrite (Rp i E); ring]. unfold is_free in E. destruct (h_p h i); [discriminate E|reflexivity].
  - rewrite <- (residual_tested c user old oo x _ _ Ht Hi Hp R Ad). fold r. rewrite Q, sqrt_sqrt.
    2: { apply Rplus_le_le_0_compat; apply sumn_nonneg; intros; apply pow2_ge_0. }
    f_equal; apply sumn_ext; intros i _; unfold distribute.
    + destruct (is_free (lines_u h) i) eqn:E; [|rewrite (Ru i E); ring]. unfold is_free in E. destruct (lines_u h i); [discriminate E|ring].
    + destruct (is_free (h_p h) i) eqn:E; [|rewrite (Rp i E); ring]. unfold is_free in E. destruct (h_p h i); [discriminate E|ring].
Qed.
(** the pressure level does not change it *)
Lemma power_shift amount time dudt conv user (x : field) V Q : level_is_force_free h -> admissible h V Q -> fulfils (h_p h) (snd x) ->
  virtual_power h time dudt conv user (shift_pressure_h h amount x) V Q = virtual_power h time dudt conv user x V Q.
Proof.
  intros F (FV & _) FP. unfold shift_pressure_h. destruct (pb_fix pb) eqn:Ef; [|reflexivity]. destruct (pb_m0 pb) as [m|] eqn:Em; [|reflexivity].
  rewrite (distribute_shift _ _ _ _ FP). assert (Z := F m V Ef Em FV). unfold virtual_power, volume_defect. cbn [fst].
  f_equal. f_equal. unfold inner_power. cbn [fst snd]. set (M := distribute (h_p h) (mode_vector m)) in *.
  transitivity (suml (pb_sites pb) (fun s => st_JxW s *
    (sumn (pb_dim pb) (fun d => (st_rho s * (dudt s d + conv s d) - st_damping s * velocity_at pb (fst x) s d) * velocity_at pb V s d)
     + 2 * st_mu s * sumn (pb_dim pb) (fun d => sumn (pb_dim pb) (fun e => sym (gradient_at pb (fst x) s) d e * sym (gradient_at pb V s) d e))
     + (fp_tau_grad_div (pb_fp pb) * divergence_at pb (fst x) s - pressure_at pb (snd x) s) * divergence_at pb V s)
     + (- amount x) * (st_JxW s * (pressure_at pb M s * divergence_at pb V s)))).
  - apply suml_ext. intros s _.
    assert (P : pressure_at pb (fun j => snd x j + amount x * M j) s = pressure_at pb (snd x) s + amount x * pressure_at pb M s).
    { unfold pressure_at. rewrite <- sumn_scal, <- sumn_plus. apply sumn_ext. intros; ring. }
    rewrite P. ring.
  - rewrite suml_plus, suml_scal, Z. ring.
Qed.
Lemma shift_velocity_h amount (x : field) : fst (shift_pressure_h h amount x) = fst x.
Proof. unfold shift_pressure_h. destruct (pb_fix pb); [|reflexivity]. destruct (pb_m0 pb); reflexivity. Qed.
Lemma shift_pressure_fulfils amount (x : field) : closed (h_p h) -> fulfils (h_p h) (snd x) -> fulfils (h_p h) (snd (shift_pressure_h h amount x)).
Proof.
  intros C F. unfold shift_pressure_h. destruct (pb_fix pb); [|exact F]. destruct (pb_m0 pb); [|exact F]. cbn [snd]. apply distribute_fulfils, C.
Qed.
End Residual.

(** ** One time step *)
Section Step.
Context {point : Type}.
Variable h : hproblem point.
Notation pb := (h_pb h).
Lemma boundary_step_h e (s : state) i v : is_projection (fp_linearization (pb_fp pb)) = false -> h_u h i = None ->
  prescribed (pb_conditions pb) (now (next (r_clock s))) (pb_faces pb) i v ->
  fst (r_sol (fst (advance_time_step_h h e s))) i = v.
Proof.
  intros Hp Hh Hv. unfold advance_time_step_h, evaluate_time_step, solve_nonlinear_system. cbn [fst r_sol r_solution]. rewrite shift_velocity_h.
  apply (loop_invariant field_add field_zero _ (pb_fp pb) _ _ (fun x : field => fst x i = v)); [exact Hp| |].
  - intros x y Hx. cbn [field_add fst o_distribute oracles_h distribute_update_h]. rewrite Hx. unfold lines_u.
    rewrite (update_dirichlet _ _ _ _ i Hh (prescribed_on_dirichlet _ _ _ _ _ Hv)). ring.
  - cbn [ls_solution init_time_advance_h r_sol r_clock fst]. unfold apply_boundary_conditions_u, distribute. rewrite Hh.
    rewrite (boundary_values_prescribed _ _ _ _ _ Hv). reflexivity.
Qed.
Lemma velocity_conforms e (s : state) : is_projection (fp_linearization (pb_fp pb)) = false -> closed (h_u h) ->
  fulfils (h_u h) (fst (r_sol (fst (advance_time_step_h h e s)))).
Proof.
  intros Hp C. unfold advance_time_step_h, evaluate_time_step, solve_nonlinear_system. cbn [fst r_sol r_solution]. rewrite shift_velocity_h.
  apply (loop_invariant field_add field_zero _ (pb_fp pb) _ _ (fun x : field => fulfils (h_u h) (fst x))); [exact Hp| |].
  - intros x y Hx. cbn [field_add fst o_distribute oracles_h distribute_update_h]. apply fulfils_add; [exact Hx|apply update_fulfils, C].
  - cbn [ls_solution init_time_advance_h r_sol fst]. unfold apply_boundary_conditions_u. apply distribute_fulfils, C.
Qed.
Lemma loop_pressure e (s : state) fuel ls : is_projection (fp_linearization (pb_fp pb)) = false -> closed (h_p h) -> fulfils (h_p h) (snd (ls_solution field ls)) ->
  fulfils (h_p h) (snd (ls_solution field (nl_loop (N:=RNum) field field_add field_zero fuel (oracles_h h e s) (pb_fp pb) (r_prec_state s) (step_no (r_clock s)) ls))).
Proof.
  intros Hp C H. apply (loop_invariant field_add field_zero _ (pb_fp pb) _ _ (fun x : field => fulfils (h_p h) (snd x))); [exact Hp| |exact H].
  intros x y Hx. cbn [field_add snd o_distribute oracles_h distribute_update_h]. apply fulfils_add; [exact Hx|apply distribute_fulfils, C].
Qed.
Lemma guess_pressure (s : state) : fulfils (h_p h) (snd (r_sol s)) -> fulfils (h_p h) (snd (r_old s)) -> fulfils (h_p h) (snd (r_sol (init_time_advance_h h s))).
Proof. intros A B. cbn [init_time_advance_h r_sol snd extrapolated]. unfold extrapolate. apply (fulfils_lin (h_p h) (snd (r_sol s)) (snd (r_old s))); assumption. Qed.
Lemma pressure_conforms e (s : state) : is_projection (fp_linearization (pb_fp pb)) = false -> closed (h_p h) ->
  fulfils (h_p h) (snd (r_sol s)) -> fulfils (h_p h) (snd (r_old s)) ->
  fulfils (h_p h) (snd (r_sol (fst (advance_time_step_h h e s)))).
Proof.
  intros Hp C A B. unfold advance_time_step_h, evaluate_time_step, solve_nonlinear_system. cbn [fst r_sol r_solution].
  apply shift_pressure_fulfils; [exact C|]. apply loop_pressure; [exact Hp|exact C|]. cbn [ls_solution]. apply guess_pressure; assumption.
Qed.
(** a successful step of a fully implicit formulation *)
Lemma implicit_step_h e (s : state) V Q : is_implicit (fp_linearization (pb_fp pb)) = true -> fp_physical_type (pb_fp pb) = incompressible ->
  (0 < fp_max_nl_iteration (pb_fp pb) < 4294967296)%Z -> level_is_force_free h -> tau1 (next (r_clock s)) = 1 ->
  closed (h_p h) -> in_range h -> fulfils (h_p h) (snd (r_sol s)) -> fulfils (h_p h) (snd (r_old s)) -> admissible h V Q ->
  let c := next (r_clock s) in let x := r_sol (fst (advance_time_step_h h e s)) in
  snd (advance_time_step_h h e s) <> (0, 0)%Z ->
  Rabs (virtual_power h (now c) (weighted pb c (fst x) (fst (r_sol s)) (fst (r_old s))) (convective_with pb (convecting c (fst (r_sol s)) (fst (r_old s))) (fst x)) (e_user e) x V Q)
    <= fp_tol_nl_iteration (pb_fp pb) * magnitude h V Q.
Proof.
  intros Him Hty Hmax F Ht C Rg P1 P2 Ad c x. assert (Hp : is_proj (fp_linearization (pb_fp pb)) = false) by (destruct (fp_linearization (pb_fp pb)); try discriminate Him; reflexivity).
  assert (Hp2 : is_projection (fp_linearization (pb_fp pb)) = false) by (destruct (fp_linearization (pb_fp pb)); try discriminate Him; reflexivity).
  assert (G := guess_pressure s P1 P2).
  unfold x, advance_time_step_h, evaluate_time_step, solve_nonlinear_system. cbn [fst snd r_sol r_solution r_outcome].
  set (s1 := init_time_advance_h h s) in *. change (next (r_clock s)) with (r_clock s1) in c, Ht. change (r_sol s) with (r_old s1). change (r_old s) with (r_oo s1).
  match goal with |- context [nl_loop field field_add field_zero ?n ?o ?f ?q ?k ?l] =>
    destruct (loop_implicit field_add field_zero o f q k Him n l ltac:(lia)) as [A B]; assert (L := loop_pressure e s1 n l Hp2 C G);
    set (s2 := nl_loop field field_add field_zero n o f q k l) in * end.
  cbn [ls_step] in B. rewrite Z2Nat.id in B by lia. cbn [oracles_h o_residual] in A.
  intros Rep. rewrite shift_velocity_h, (power_shift h _ _ _ _ _ _ _ _ F Ad L).
  apply Rle_trans with (1 := residual_bounds h c (e_user e) (r_old s1) (r_oo s1) (ls_solution field s2) V Q Ht Hty Hp Rg Ad).
  apply Rmult_le_compat_r; [apply sqrt_pos|]. change c with (r_clock s1). rewrite <- A.
  change (nltb (n:=RNum) (ls_res field s2) (fp_tol_nl_iteration (pb_fp pb))) with (Rltb (ls_res field s2) (fp_tol_nl_iteration (pb_fp pb))) in B.
  destruct (Rltb_spec (ls_res field s2) (fp_tol_nl_iteration (pb_fp pb))) as [Lt|Ge]; [left; exact Lt|].
  exfalso. apply Rep. destruct (Z.ltb_spec (ls_step field s2) (fp_max_nl_iteration (pb_fp pb))) as [?|_]; [lia|]. reflexivity.
Qed.
(** a step that reports failure *)
Lemma implicit_reject_h e (s : state) : is_implicit (fp_linearization (pb_fp pb)) = true -> fp_physical_type (pb_fp pb) = incompressible ->
  (0 < fp_max_nl_iteration (pb_fp pb) < 4294967296)%Z -> tau1 (next (r_clock s)) = 1 ->
  closed (h_u h) -> closed (h_p h) -> in_range h -> pb_m0 pb = None -> pb_m1 pb = None ->
  (forall i, is_free (lines_u h) i = false -> fst (e_user e) i = 0) -> (forall i, is_free (h_p h) i = false -> snd (e_user e) i = 0) ->
  let c := next (r_clock s) in let x := r_sol (fst (advance_time_step_h h e s)) in
  snd (advance_time_step_h h e s) = (0, 0)%Z ->
  exists V Q, admissible h V Q /\ fp_tol_nl_iteration (pb_fp pb) <= free_magnitude h V Q /\
  virtual_power h (now c) (weighted pb c (fst x) (fst (r_sol s)) (fst (r_old s))) (convective_with pb (convecting c (fst (r_sol s)) (fst (r_old s))) (fst x)) (e_user e) x V Q
    = free_magnitude h V Q * free_magnitude h V Q.
Proof.
  intros Him Hty Hmax Ht Cu Cp Rg M0 M1 Uu Up c x. assert (Hp : is_proj (fp_linearization (pb_fp pb)) = false) by (destruct (fp_linearization (pb_fp pb)); try discriminate Him; reflexivity).
  unfold x, advance_time_step_h, evaluate_time_step, solve_nonlinear_system. cbn [fst snd r_sol r_solution r_outcome].
  set (s1 := init_time_advance_h h s) in *. change (next (r_clock s)) with (r_clock s1) in c, Ht. change (r_sol s) with (r_old s1). change (r_old s) with (r_oo s1).
  match goal with |- context [nl_loop field field_add field_zero ?n ?o ?f ?q ?k ?l] =>
    destruct (loop_implicit field_add field_zero o f q k Him n l ltac:(lia)) as [A B];
    set (s2 := nl_loop field field_add field_zero n o f q k l) in * end.
  cbn [ls_step] in B. rewrite Z2Nat.id in B by lia. cbn [oracles_h o_residual] in A.
  intros Rep. assert (Sh : shift_pressure_h h (e_shift e) (ls_solution field s2) = ls_solution field s2).
  { unfold shift_pressure_h. rewrite M0. destruct (pb_fix pb); reflexivity. }
  rewrite Sh. destruct (residual_attained h c (e_user e) (r_old s1) (r_oo s1) (ls_solution field s2) Ht Hty Hp Rg Cu Cp M0 M1 Uu Up) as (V & Q & Ad & E1 & E2).
  exists V, Q. split; [exact Ad|]. rewrite E2, E1. split; [|reflexivity]. change (r_clock s1) with c in A. rewrite <- A.
  change (nltb (n:=RNum) (ls_res field s2) (fp_tol_nl_iteration (pb_fp pb))) with (Rltb (ls_res field s2) (fp_tol_nl_iteration (pb_fp pb))) in B.
  destruct (Rltb_spec (ls_res field s2) (fp_tol_nl_iteration (pb_fp pb))) as [Lt|Ge]; [|apply Rnot_lt_le; exact Ge].
  exfalso. destruct (Z.ltb_spec (ls_step field s2) (fp_max_nl_iteration (pb_fp pb))) as [_|?]; [|lia].
  revert Rep. unfold u32. rewrite (Z.mod_small (ls_step field s2 + 1)) by lia. intros Q0. inversion Q0. lia.
Qed.
End Step.

(** ** The run *)
Section Theorems.
Context {point : Type}.
Variable h : hproblem point.
Notation pb := (h_pb h).
Variable env : nat -> environment.
Variable s0 : state.
Variable p : ts_params RNum.
Notation x := (fun k => r_sol (run_h h env k s0)).
Notation t := (fun k => now (r_clock (run_h h env k s0))).
Lemma clock_run_h k : r_clock (run_h h env k s0) = next_n k (r_clock s0).
Proof. induction k as [|k IH]; [reflexivity|]. rewrite next_n_S, <- IH. reflexivity. Qed.
Lemma old_run_h k : r_old (run_h h env (S k) s0) = r_sol (run_h h env k s0).
Proof. reflexivity. Qed.
Lemma step_terms_h n : r_clock s0 = ts_init p -> well_posed p -> (tp_scheme p = bdf_2 \/ tp_scheme p = implicit_euler) ->
  (forall j, (j < S n)%nat -> at_end (next_n j (ts_init p)) = false) ->
  (is_implicit (fp_linearization (pb_fp pb)) = true \/ (Z.of_nat n < 4294967296)%Z) ->
  let s := run_h h env n s0 in let c := r_clock (run_h h env (S n) s0) in
  tau1 c = 1 /\
  exists delta, Rabs delta <= / 1000000000000 /\
    forall u, u = fst (x (S n)) -> weighted pb c u (fst (r_sol s)) (fst (r_old s)) = derivative pb (tp_scheme p) (S n) t x delta /\
    convective_with pb (convecting c (fst (r_sol s)) (fst (r_old s))) u = convective pb (S n) t x.
Proof.
  intros H0 W Hs H Hlin s c. split.
  { unfold c. rewrite clock_run_h, H0, next_n_run. destruct (scheme_constants p (repeat Next (S n))) as (_ & K & _). apply K. destruct Hs; auto. }
  assert (Ec : forall k, r_clock (run_h h env k s0) = next_n k (ts_init p)) by (intros k; rewrite clock_run_h, H0; reflexivity).
  assert (Et : t = fun j => now (next_n j (ts_init p))) by (apply functional_extensionality; intros k; rewrite Ec; reflexivity).
  destruct (weights_any p n W H) as (delta & Hd & Q). exists delta. split; [exact Hd|]. intros u Hu. split.
  - apply functional_extensionality. intros st. apply functional_extensionality. intros d. unfold derivative. rewrite Et.
    specialize (Q (fun j => velocity_at pb (fst (x j)) st d) (velocity_at pb (fst (r_old s)) st d)).
    assert (Hn : (1 <= n)%nat -> velocity_at pb (fst (r_old s)) st d = velocity_at pb (fst (x (n - 1)%nat)) st d).
    { intros L. destruct n as [|m]; [lia|]. unfold s. rewrite old_run_h. replace (S m - 1)%nat with m by lia. reflexivity. }
    specialize (Q Hn). cbn beta in Q. rewrite <- Q. unfold weighted, c. rewrite Ec, Hu. reflexivity.
  - unfold convective_with, convective.
    assert (P : (Z.of_nat n < 4294967296)%Z -> convecting c (fst (r_sol s)) (fst (r_old s)) = predicted (S n) t x).
    { intros L. unfold c. rewrite Ec, Et. apply convecting_at; try assumption; [reflexivity|]. intros L1. destruct n as [|m]; [lia|]. unfold s. rewrite old_run_h.
      replace (S m - 1)%nat with m by lia. reflexivity. }
    destruct Hlin as [Hi|L].
    + destruct (fp_linearization (pb_fp pb)); try discriminate Hi; rewrite Hu; reflexivity.
    + rewrite (P L), Hu. reflexivity.
Qed.
Lemma pressures_conform k : is_projection (fp_linearization (pb_fp pb)) = false -> closed (h_p h) ->
  fulfils (h_p h) (snd (r_sol s0)) -> fulfils (h_p h) (snd (r_old s0)) ->
  fulfils (h_p h) (snd (x k)) /\ fulfils (h_p h) (snd (r_old (run_h h env k s0))).
Proof.
  intros Hp C A B. induction k as [|k [I1 I2]]; [split; assumption|]. split; [|rewrite old_run_h; exact I1].
  cbn [run_h]. apply pressure_conforms; assumption.
Qed.

(** A run of [while (!at_end()) advance_time_step();] with a fully implicit formulation on a mesh with hanging nodes, periodic boundaries and
    symmetry planes: it ends at the final time; after every step, successful or not, the fields fulfil all these constraints and the
    prescribed values at unconstrained unknowns; and a step that reports success has fields for which the weak form of the Navier-Stokes
    equations, tested with any admissible velocity and pressure, is fulfilled up to the tolerance.  A step reports failure only if there are
    admissible functions for which it is violated by the tolerance or more (stated for problems without pressure modes and forces that
    vanish at constrained unknowns) *)
Theorem C127_constrained_run :
  r_clock s0 = ts_init p -> well_posed p -> (tp_scheme p = bdf_2 \/ tp_scheme p = implicit_euler) ->
  fp_physical_type (pb_fp pb) = incompressible -> iterated (fp_linearization (pb_fp pb)) = true ->
  (0 < fp_max_nl_iteration (pb_fp pb) < 4294967296)%Z -> level_is_force_free h ->
  closed (h_u h) -> closed (h_p h) -> in_range h -> fulfils (h_p h) (snd (r_sol s0)) -> fulfils (h_p h) (snd (r_old s0)) ->
  exists n, at_end (r_clock (run_h h env n s0)) = true /\ (forall k, (k < n)%nat -> at_end (r_clock (run_h h env k s0)) = false) /\
    INR n <= (tp_end p - tp_start p) / Rmin (tp_step_start p) (tp_step_max p) + 1 /\
    t 0%nat = tp_start p /\ t n = tp_end p /\
    forall k, (1 <= k <= n)%nat ->
      t (k - 1)%nat < t k /\
      (forall i v, h_u h i = None -> prescribed (pb_conditions pb) (t k) (pb_faces pb) i v -> fst (x k) i = v) /\
      fulfils (h_u h) (fst (x k)) /\ fulfils (h_p h) (snd (x k)) /\
      exists delta, Rabs delta <= / 1000000000000 /\
        (report_h h env (k - 1) s0 <> (0, 0)%Z -> forall V Q, admissible h V Q ->
         Rabs (virtual_power h (t k) (derivative pb (tp_scheme p) k t x delta) (convective pb k t x) (e_user (env (k - 1)%nat)) (x k) V Q)
         <= fp_tol_nl_iteration (pb_fp pb) * magnitude h V Q) /\
        (report_h h env (k - 1) s0 = (0, 0)%Z -> pb_m0 pb = None -> pb_m1 pb = None ->
         (forall i, is_free (lines_u h) i = false -> fst (e_user (env (k - 1)%nat)) i = 0) -> (forall i, is_free (h_p h) i = false -> snd (e_user (env (k - 1)%nat)) i = 0) ->
         exists V Q, admissible h V Q /\ fp_tol_nl_iteration (pb_fp pb) <= free_magnitude h V Q /\
         virtual_power h (t k) (derivative pb (tp_scheme p) k t x delta) (convective pb k t x) (e_user (env (k - 1)%nat)) (x k) V Q = free_magnitude h V Q * free_magnitude h V Q).
Proof.
  intros H0 W Hs Hty Hi Hmax F Cu Cp Rg Q1 Q2. rewrite <- iterated_is in Hi.
  assert (Hp : is_projection (fp_linearization (pb_fp pb)) = false) by (destruct (fp_linearization (pb_fp pb)); try discriminate Hi; reflexivity).
  assert (Ec : forall k, r_clock (run_h h env k s0) = next_n k (ts_init p)) by (intros k; rewrite clock_run_h, H0; reflexivity).
  destruct W as (W1 & W2 & W3 & W4). assert (W : well_posed p) by (repeat split; assumption).
  destruct (plain_loop_terminates p W1 W2 W4) as (n & Hn & He & Ht & Hk). exists n.
  rewrite !Ec. split; [exact He|]. split; [intros k L; rewrite Ec; apply Hk, L|]. split; [exact Hn|]. split; [reflexivity|]. split; [exact Ht|].
  intros k [K1 K2]. destruct k as [|k]; [lia|]. replace (S k - 1)%nat with k by lia.
  assert (Hj : forall j, (j < S k)%nat -> at_end (next_n j (ts_init p)) = false) by (intros; apply Hk; lia).
  split; [rewrite !Ec; apply times_increase; assumption|].
  split; [intros i v Hh Hv; apply (boundary_step_h h (env k) (run_h h env k s0)); assumption|].
  split; [apply velocity_conforms; assumption|].
  destruct (pressures_conform (S k) Hp Cp Q1 Q2) as [P1 _]. split; [exact P1|]. clear P1.
  destruct (pressures_conform k Hp Cp Q1 Q2) as [P1 P2].
  destruct (step_terms_h k H0 W Hs Hj (or_introl Hi)) as (Ht1 & delta & Hd & E). exists delta. split; [exact Hd|].
  destruct (E _ eq_refl) as [E1 E2]. rewrite <- E1, <- E2. split.
  - intros Rep V Q Ad. exact (implicit_step_h h (env k) (run_h h env k s0) V Q Hi Hty Hmax F Ht1 Cp Rg P1 P2 Ad Rep).
  - intros Rep M0 M1 Uu Up. exact (implicit_reject_h h (env k) (run_h h env k s0) Hi Hty Hmax Ht1 Cu Cp Rg M0 M1 Uu Up Rep).
Qed.
End Theorems.
Print Assumptions C127_constrained_run.

(** ** The linearized formulations *)
(** Krylov solvers that tell the truth: when they report convergence the residual of the linear system is at most the requested tolerance
    and the entries of constrained unknowns, whose equations read u = 0, are zero *)
Definition honest_h {point} (h : hproblem point) (e : environment) (s : state) (solver : Z -> R -> field -> nat -> krylov (N:=RNum) field) : Prop :=
  forall budget tol guess call, k_converged _ (solver budget tol guess call) = true ->
    let d := k_iterate _ (solver budget tol guess call) in
    residual_norm (h_pb h) (subtract (system_rhs_h h (r_clock s) (e_user e) (r_old s) (r_oo s) (r_sol s)) (system_matrix_h h (r_clock s) (r_old s) (r_oo s) (r_sol s) d)) <= tol /\
    (forall i, is_free (lines_u h) i = false -> fst d i = 0) /\ (forall i, is_free (h_p h) i = false -> snd d i = 0).
Definition reliable_h {point} (h : hproblem point) (e : environment) (s : state) : Prop :=
  honest_h h e (init_time_advance_h h s) (e_cheap e) /\ honest_h h e (init_time_advance_h h s) (e_strong e) /\
  (forall budget guess call, k_converged _ (e_strong e budget (linear_bound (pb_fp (h_pb h))) guess call) = true) /\
  (fp_iterations_before_inner_solvers (pb_fp (h_pb h)) < fp_max_lin_iteration (pb_fp (h_pb h)))%Z.

Section Linear.
Context {point : Type}.
Variable h : hproblem point.
Notation pb := (h_pb h).
Lemma condense_minus n (con : lines) (a b : vec) g : condense n con (fun i => a i - b i) g = condense n con a g - condense n con b g.
Proof.
  unfold condense. rewrite <- sumn_minus. apply sumn_ext. intros i _. rewrite <- suml_minus. apply suml_ext. intros mw _. destruct (Nat.eqb _ _); ring.
Qed.
Lemma condense_ext n (con : lines) (a b : vec) g : (forall i, a i = b i) -> condense n con a g = condense n con b g.
Proof. intros H. unfold condense. apply sumn_ext. intros i _. apply suml_ext. intros mw _. rewrite H. reflexivity. Qed.
Lemma condense_constrained n (con : lines) raw g : closed con -> is_free con g = false -> condense n con raw g = 0.
Proof.
  intros C Fg. unfold condense. apply sumn_zero. intros i _. apply suml_zero. intros [m w] Hin. cbn [fst snd]. destruct (Nat.eqb_spec m g) as [->|]; [|reflexivity].
  exfalso. unfold is_free in Fg. unfold expand in Hin. destruct (con i) as [l|] eqn:E; [rewrite (C i l g w E Hin) in Fg; discriminate Fg|].
  destruct Hin as [Hin|[]]. injection Hin as -> _. rewrite E in Fg. discriminate Fg.
Qed.
Lemma project_minus n m (a b : vec) i : project_mode n m (fun j => a j - b j) i = project_mode n m a i - project_mode n m b i.
Proof.
  destruct m as [k|]; [|reflexivity]. cbn [project_mode]. unfold dot.
  rewrite (sumn_ext n _ (fun j => mode_weights k j * a j - mode_weights k j * b j)) by (intros; ring). rewrite sumn_minus. ring.
Qed.
Lemma average_minus s m0 m1 (a b : vec) i : average_projection s m0 m1 (fun j => a j - b j) i = average_projection s m0 m1 a i - average_projection s m0 m1 b i.
Proof.
  unfold average_projection. destruct (_ && _); [|reflexivity]. rewrite <- project_minus. f_equal. apply functional_extensionality. intros j. apply project_minus.
Qed.
(** after the update the residual is that of the linear system *)
Lemma matrix_step (c : clock RNum) user old oo (x d : field) : linearized (fp_linearization (pb_fp pb)) = true -> closed (h_u h) -> closed (h_p h) ->
  (forall i, is_free (lines_u h) i = false -> fst d i = 0) -> (forall i, is_free (h_p h) i = false -> snd d i = 0) ->
  let r := subtract (system_rhs_h h c user old oo x) (system_matrix_h h c old oo x d) in
  let r2 := system_rhs_h h c user old oo (field_add x (distribute_update_h h d)) in
  (forall i, fst r2 i = fst r i) /\ (forall i, snd r2 i = snd r i).
Proof.
  intros Hl Cu Cp Du Dp r r2. assert (CL := lines_u_closed h Cu).
  destruct (free_rows (without_constraints pb) c field_zero old oo x (distribute_update_h h d) Hl (fun _ => eq_refl)) as [A B].
  set (raw := system_matrix (without_constraints pb) c field_zero old oo x (distribute_update_h h d)) in *.
  assert (A' : forall i, fst (cell_terms h c old oo (field_add x (distribute_update_h h d))) i = fst (cell_terms h c old oo x) i - fst raw i) by (intros i; exact (A i eq_refl)).
  assert (B' : forall i, snd (cell_terms h c old oo (field_add x (distribute_update_h h d))) i = snd (cell_terms h c old oo x) i - snd raw i) by (intros i; exact (B i)).
  clear A B. unfold r, r2, subtract, system_rhs_h, system_matrix_h. clear r r2. cbn [fst snd].
  change (distribute (lines_u h) (fst d), distribute (h_p h) (snd d)) with (distribute_update_h h d). fold raw. split; intros i.
  - rewrite (condense_ext _ _ _ _ _ A'), condense_minus. destruct (is_free (lines_u h) i) eqn:E; [ring|].
    rewrite (Du i E), !(condense_constrained _ _ _ _ CL E). ring.
  - rewrite <- average_minus. f_equal. apply functional_extensionality. intros j. rewrite (condense_ext _ _ _ _ _ B'), condense_minus.
    destruct (is_free (h_p h) j) eqn:E; [ring|]. rewrite (Dp j E), !(condense_constrained _ _ _ _ Cp E). ring.
Qed.
Lemma linear_step_h e (s : state) V Q : linearized (fp_linearization (pb_fp pb)) = true -> fp_physical_type (pb_fp pb) = incompressible ->
  (0 < fp_max_nl_iteration (pb_fp pb))%Z -> level_is_force_free h -> tau1 (next (r_clock s)) = 1 ->
  closed (h_u h) -> closed (h_p h) -> in_range h -> fulfils (h_p h) (snd (r_sol s)) -> fulfils (h_p h) (snd (r_old s)) -> admissible h V Q -> reliable_h h e s ->
  let c := next (r_clock s) in let x := r_sol (fst (advance_time_step_h h e s)) in
  Rabs (virtual_power h (now c) (weighted pb c (fst x) (fst (r_sol s)) (fst (r_old s))) (convective_with pb (convecting c (fst (r_sol s)) (fst (r_old s))) (fst x)) (e_user e) x V Q)
    <= linear_bound (pb_fp pb) * magnitude h V Q.
Proof.
  intros Hl Hty Hmax F Ht Cu Cp Rg P1 P2 Ad (R1 & R2 & R3 & R4) c x.
  assert (Hp : is_proj (fp_linearization (pb_fp pb)) = false) by (destruct (fp_linearization (pb_fp pb)); try discriminate Hl; reflexivity).
  assert (Hp2 : is_projection (fp_linearization (pb_fp pb)) = false) by (destruct (fp_linearization (pb_fp pb)); try discriminate Hl; reflexivity).
  assert (Hi : is_implicit (fp_linearization (pb_fp pb)) = false) by (destruct (fp_linearization (pb_fp pb)); try discriminate Hl; reflexivity).
  assert (G := guess_pressure h s P1 P2).
  unfold x, advance_time_step_h, evaluate_time_step, solve_nonlinear_system. cbn [fst r_sol r_solution].
  set (s1 := init_time_advance_h h s) in *. change (next (r_clock s)) with (r_clock s1) in c, Ht. change (r_sol s) with (r_old s1). change (r_old s) with (r_oo s1).
  match goal with |- context [nl_loop field field_add field_zero ?n ?o ?f ?q ?k ?l] =>
    destruct (loop_linearized field_add field_zero o f q k Hi n l ltac:(lia)) as [_ B]; assert (L := loop_pressure h e s1 n l Hp2 Cp G); rewrite B in *; clear B end.
  cbn [ls_solution ls_res ls_step] in *.
  set (o := oracles_h h e s1) in *. set (tol := linear_tolerance (pb_fp pb) (o_residual field o (r_sol s1))) in *.
  assert (Etol : tol = linear_bound (pb_fp pb)).
  { unfold tol, linear_tolerance, linear_bound. rewrite Hi. rewrite orb_true_r. destruct (fp_rel_lin_iteration (pb_fp pb)); [|reflexivity].
    rnum. unfold Q2R. cbn. lra. }
  assert (S : exists d, l_update field (solve_system field field_zero o (pb_fp pb) tol (Z.to_nat 0)) = distribute_update_h h d /\
     residual_norm pb (subtract (system_rhs_h h c (e_user e) (r_old s1) (r_oo s1) (r_sol s1)) (system_matrix_h h c (r_old s1) (r_oo s1) (r_sol s1) d)) <= tol /\
     (forall i, is_free (lines_u h) i = false -> fst d i = 0) /\ (forall i, is_free (h_p h) i = false -> snd d i = 0)).
  { unfold solve_system. rewrite Hp2. cbv zeta. destruct (k_converged field _) eqn:K.
    - eexists. split; [reflexivity|]. apply R1. exact K.
    - destruct (Z.ltb_spec (fp_iterations_before_inner_solvers (pb_fp pb)) (fp_max_lin_iteration (pb_fp pb))) as [_|?]; [|lia].
      eexists. split; [reflexivity|]. apply R2. rewrite Etol. apply R3. }
  destruct S as (d & Ed & Hd & Du & Dp). rewrite Ed in *. clear Ed. rewrite Etol in Hd.
  destruct (matrix_step c (e_user e) (r_old s1) (r_oo s1) (r_sol s1) d Hl Cu Cp Du Dp) as [A B].
  rewrite shift_velocity_h, (power_shift h _ _ _ _ _ _ _ _ F Ad L).
  apply Rle_trans with (1 := residual_bounds h c (e_user e) (r_old s1) (r_oo s1) _ V Q Ht Hty Hp Rg Ad).
  apply Rmult_le_compat_r; [apply sqrt_pos|]. apply Rle_trans with (2 := Hd). right. unfold compute_residual_h. rewrite !norm_of_parts. f_equal.
  f_equal; apply sumn_ext; intros i _; [rewrite A|rewrite B]; reflexivity.
Qed.
Variable env : nat -> environment.
Variable s0 : state.
Variable p : ts_params RNum.
Notation x := (fun k => r_sol (run_h h env k s0)).
Notation t := (fun k => now (r_clock (run_h h env k s0))).
(** The same for the linearized formulations: with linear solvers that converge the equations of the scheme (convecting velocity extrapolated from
    the last two time levels) are fulfilled up to the tolerance of the linear solver *)
Theorem C127_constrained_linearized :
  r_clock s0 = ts_init p -> well_posed p -> (tp_scheme p = bdf_2 \/ tp_scheme p = implicit_euler) ->
  fp_physical_type (pb_fp pb) = incompressible -> linearized (fp_linearization (pb_fp pb)) = true ->
  (0 < fp_max_nl_iteration (pb_fp pb))%Z -> level_is_force_free h ->
  closed (h_u h) -> closed (h_p h) -> in_range h -> fulfils (h_p h) (snd (r_sol s0)) -> fulfils (h_p h) (snd (r_old s0)) ->
  exists n, at_end (r_clock (run_h h env n s0)) = true /\ (forall k, (k < n)%nat -> at_end (r_clock (run_h h env k s0)) = false) /\
    t 0%nat = tp_start p /\ t n = tp_end p /\
    forall k, (1 <= k <= n)%nat ->
      t (k - 1)%nat < t k /\
      (forall i v, h_u h i = None -> prescribed (pb_conditions pb) (t k) (pb_faces pb) i v -> fst (x k) i = v) /\
      fulfils (h_u h) (fst (x k)) /\ fulfils (h_p h) (snd (x k)) /\
      ((Z.of_nat k <= 4294967296)%Z -> reliable_h h (env (k - 1)%nat) (run_h h env (k - 1) s0) ->
       exists delta, Rabs delta <= / 1000000000000 /\ forall V Q, admissible h V Q ->
         Rabs (virtual_power h (t k) (derivative pb (tp_scheme p) k t x delta) (convective pb k t x) (e_user (env (k - 1)%nat)) (x k) V Q)
         <= linear_bound (pb_fp pb) * magnitude h V Q).
Proof.
  intros H0 W Hs Hty Hi Hmax F Cu Cp Rg Q1 Q2.
  assert (Hp : is_projection (fp_linearization (pb_fp pb)) = false) by (destruct (fp_linearization (pb_fp pb)); try discriminate Hi; reflexivity).
  assert (Ec : forall k, r_clock (run_h h env k s0) = next_n k (ts_init p)) by (intros k; rewrite clock_run_h, H0; reflexivity).
  destruct W as (W1 & W2 & W3 & W4). assert (W : well_posed p) by (repeat split; assumption).
  destruct (plain_loop_terminates p W1 W2 W4) as (n & Hn & He & Ht & Hk). exists n.
  rewrite !Ec. split; [exact He|]. split; [intros k L; rewrite Ec; apply Hk, L|]. split; [reflexivity|]. split; [exact Ht|].
  intros k [K1 K2]. destruct k as [|k]; [lia|]. replace (S k - 1)%nat with k by lia.
  assert (Hj : forall j, (j < S k)%nat -> at_end (next_n j (ts_init p)) = false) by (intros; apply Hk; lia).
  split; [rewrite !Ec; apply times_increase; assumption|].
  split; [intros i v Hh Hv; apply (boundary_step_h h (env k) (run_h h env k s0)); assumption|].
  split; [apply velocity_conforms; assumption|].
  destruct (pressures_conform h env s0 (S k) Hp Cp Q1 Q2) as [P1 _]. split; [exact P1|]. clear P1.
  intros Lk Rel. assert (Lk2 : (Z.of_nat k < 4294967296)%Z) by lia.
  destruct (pressures_conform h env s0 k Hp Cp Q1 Q2) as [P1 P2].
  destruct (step_terms_h h env s0 p k H0 W Hs Hj (or_intror Lk2)) as (Ht1 & delta & Hd & E). exists delta. split; [exact Hd|].
  destruct (E _ eq_refl) as [E1 E2]. rewrite <- E1, <- E2. intros V Q Ad.
  exact (linear_step_h (env k) (run_h h env k s0) V Q Hi Hty Hmax F Ht1 Cu Cp Rg P1 P2 Ad Rel).
Qed.
End Linear.
Print Assumptions C127_constrained_linearized.

(** ** Example: velocity unknown 0 is free, 1 has the prescribed value [time], 2 hangs between them; pressure unknown 1 is periodic to 0 *)
Definition hr_lines : lines := fun i => if Nat.eqb i 2 then Some [(0%nat, 1 / 2); (1%nat, 1 / 2)] else None.
Definition hr_lines_p : lines := fun i => if Nat.eqb i 1 then Some [(0%nat, 1)] else None.
Definition hr_pb : problem unit :=
  MkProblem (ex_fp coupled_implicit_picard) 1 3 2 [ex_site] (MkConditions (fun id => if Nat.eqb id 5 then Some (fun time _ _ => time) else None) (fun _ => false))
    [MkBFace 5%nat [(1%nat, tt, 0%nat)]] (fun _ => None) [] (fun _ => false) None None false.
Definition hr_h : hproblem unit := MkHanging hr_pb hr_lines hr_lines_p.
Definition hr_env (u0 : R) (k : nat) : environment :=
  MkEnv (ex_krylov true u0) (ex_krylov true u0) (fun _ => MkKrylov (N:=RNum) field 0%Z 0 field_zero false) (fun _ => 0) (fun i => if Nat.eqb i 0 then 9 / 2 else 0, fun _ => 0).
Lemma hr_x1 u0 : let x1 := fst (r_sol (run_h hr_h (hr_env u0) 1 ex_s0)) in x1 0%nat = u0 /\ x1 1%nat = 1 /\ x1 2%nat = (u0 + 1) / 2.
Proof.
  intros x1.
  assert (G : exists g : field, x1 = fst (field_add g (distribute_update_h hr_h (fun i => if Nat.eqb i 0 then u0 else 7, fun _ => 0))) /\ fst g 0%nat = 0 /\ fst g 1%nat = 1 /\ fst g 2%nat = 1 / 2).
  { eexists. unfold x1. clear x1. cbn [run_h]. unfold advance_time_step_h, evaluate_time_step, solve_nonlinear_system. cbn [fst r_sol r_solution ex_s0]. rewrite shift_velocity_h.
    change (Z.to_nat (fp_max_nl_iteration (pb_fp (h_pb hr_h)))) with 1%nat. cbn [nl_loop]. cbv zeta.
    assert (U : forall tol call, l_update field (solve_system field field_zero (oracles_h hr_h (hr_env u0 0) (init_time_advance_h hr_h ex_s0)) (ex_fp coupled_implicit_picard) tol call)
              = distribute_update_h hr_h (fun i => if Nat.eqb i 0 then u0 else 7, fun _ => 0)).
    { intros tol call. unfold solve_system. cbn. reflexivity. }
    split.
    - change (fp_linearization (pb_fp (h_pb hr_h))) with coupled_implicit_picard. cbn [is_implicit negb].
      destruct (nltb _ _); cbn [ls_solution]; apply (f_equal fst), (f_equal (field_add _)); exact (U _ _).
    - cbn [ls_solution init_time_advance_h r_sol fst ex_s0 r_clock]. unfold apply_boundary_conditions_u, distribute.
      change (h_u hr_h 0%nat) with (@None (list (nat * R))). change (h_u hr_h 1%nat) with (@None (list (nat * R))). change (h_u hr_h 2%nat) with (Some [(0%nat, 1 / 2); (1%nat, 1 / 2)]).
      cbv iota. assert (T := ex_time). assert (E0 : extrapolate (N:=RNum) (next (ts_init ex_p)) 0 0 = 0) by (unfold extrapolate; rnum; ring).
      cbn [suml fst snd].
      change (boundary_values (pb_conditions (h_pb hr_h)) (now (next (ts_init ex_p))) (pb_faces (h_pb hr_h)) 0) with (@None R).
      change (boundary_values (pb_conditions (h_pb hr_h)) (now (next (ts_init ex_p))) (pb_faces (h_pb hr_h)) 1) with (Some (now (next (ts_init ex_p)))).
      cbv iota. rewrite T. cbn -[next ts_init ex_p extrapolate]. rewrite !E0. lra. }
  destruct G as (g & -> & G0 & G1 & G2). cbn. rewrite G0, G1, G2. lra.
Qed.
Lemma hr_closed : closed hr_lines /\ closed hr_lines_p.
Proof.
  split; intros i l m w H Hin.
  - unfold hr_lines in H. destruct (Nat.eqb i 2); [|discriminate H]. injection H as <-. destruct Hin as [E|[E|[]]]; injection E as <- <-; reflexivity.
  - unfold hr_lines_p in H. destruct (Nat.eqb i 1); [|discriminate H]. injection H as <-. destruct Hin as [E|[]]; injection E as <- <-; reflexivity.
Qed.
Lemma hr_range : in_range hr_h.
Proof.
  split; [|split].
  - intros [|[|[|i]]] mw Hi Hin; cbn in Hi, Hin; try lia; destruct Hin as [<-|[]]; cbn; lia.
  - intros [|[|i]] mw Hi Hin; cbn in Hi, Hin; try lia; destruct Hin as [<-|[]]; cbn; lia.
  - intros f a [].
Qed.
Lemma hr_power u0 delta v : let x k := r_sol (run_h hr_h (hr_env u0) k ex_s0) in let t k := now (r_clock (run_h hr_h (hr_env u0) k ex_s0)) in
  forall V Q, V 0%nat = v -> V 1%nat = 0 -> V 2%nat = v / 2 ->
  virtual_power hr_h (t 1%nat) (derivative hr_pb implicit_euler 1 t x delta) (convective hr_pb 1 t x) (e_user (hr_env u0 0)) (x 1%nat) V Q = (9 / 2 - (1 + delta) * (9 / 4) * (u0 + 1)) * v.
Proof.
  intros x t V Q V0 V1 V2. destruct (hr_x1 u0) as (X0 & X1 & X2). fold (x 1%nat) in X0, X1, X2.
  assert (T1 : t 1%nat = 1) by exact ex_time. assert (T0 : t 0%nat = 0) by reflexivity. assert (Z0 : fst (x 0%nat) = fun _ => 0) by reflexivity.
  assert (G : forall u d e, gradient_at hr_pb u ex_site d e = 0).
  { intros u d e. unfold gradient_at. apply sumn_zero. intros j _. cbn. ring. }
  assert (C : forall d, convective hr_pb 1 t x ex_site d = 0).
  { intros d. unfold convective. change (fp_linearization (pb_fp hr_pb)) with coupled_implicit_picard. cbv iota. unfold transport. change (fp_beta (pb_fp hr_pb)) with 0.
    rewrite sumn_zero; [ring|]. intros e _. rewrite G. ring. }
  assert (D : forall u, divergence_at hr_pb u ex_site = 0) by (intros u; unfold divergence_at; apply sumn_zero; intros; apply G).
  unfold virtual_power, external_power, inner_power, volume_defect. change (h_pb hr_h) with hr_pb. change (pb_sites hr_pb) with [ex_site].
  change (pb_ofaces hr_pb) with (@nil (oface unit)). cbn [suml]. rewrite !D. change (pb_dim hr_pb) with 1%nat. cbn [sumn]. rewrite C. unfold sym. rewrite !G.
  unfold derivative, difference, lead, three_levels. cbn [scheme_eqb andb]. change (1 - 1)%nat with 0%nat. rewrite T1, T0, Z0. unfold velocity_at. change (pb_nu hr_pb) with 3%nat. change (pb_np hr_pb) with 2%nat.
  cbn -[x]. rewrite X0, X1, X2, V0, V1, V2. field.
Qed.
(** the hypotheses of C127_constrained_run hold, the step is successful, the hanging unknown is the mean of a free and a prescribed one, and
    there are non-trivial admissible test functions *)
Example C127_nonvacuous :
  r_clock ex_s0 = ts_init ex_p /\ well_posed ex_p /\ level_is_force_free hr_h /\ closed (h_u hr_h) /\ closed (h_p hr_h) /\ in_range hr_h /\
  fulfils (h_p hr_h) (snd (r_sol ex_s0)) /\ fulfils (h_p hr_h) (snd (r_old ex_s0)) /\
  report_h hr_h (hr_env 1) 0 ex_s0 <> (0, 0)%Z /\
  fst (r_sol (run_h hr_h (hr_env 1) 1 ex_s0)) 2%nat = 1 /\
  admissible hr_h (fun i => if Nat.eqb i 0 then 2 else if Nat.eqb i 2 then 1 else 0) (fun _ => 3).
Proof.
  assert (W : well_posed ex_p) by (unfold well_posed; cbn; rnum; lra). assert (F : level_is_force_free hr_h) by (intros m V Hf; discriminate Hf).
  destruct hr_closed as [C1 C2]. assert (Fz : fulfils hr_lines_p (fun _ => 0)).
  { intros i l. unfold hr_lines_p. destruct (Nat.eqb i 1); [|discriminate]. intros [= <-]. cbn. ring. }
  assert (Ad : forall v q, admissible hr_h (fun i => if Nat.eqb i 0 then v else if Nat.eqb i 2 then v / 2 else 0) (fun _ => q)).
  { intros v q. split; [|split].
    - intros [|[|[|i]]] l Hl; cbn in Hl; [discriminate Hl|injection Hl as <-; reflexivity|injection Hl as <-; cbn; lra|discriminate Hl].
    - intros [|[|i]] l Hl; cbn in Hl; [discriminate Hl|injection Hl as <-; cbn; lra|discriminate Hl].
    - intros m [Hm|Hm]; discriminate Hm. }
  split; [reflexivity|]. split; [exact W|]. split; [exact F|]. split; [exact C1|]. split; [exact C2|]. split; [exact hr_range|]. split; [exact Fz|]. split; [exact Fz|].
  split; [|split; [destruct (hr_x1 1) as (_ & _ & X2); rewrite X2; lra|]].
  2: { assert (A := Ad 2 3). replace (2 / 2) with 1 in A by lra. exact A. }
  (* the residual *)
  set (s1 := init_time_advance_h hr_h ex_s0). set (x1 := r_sol (run_h hr_h (hr_env 1) 1 ex_s0)).
  assert (Small : compute_residual_h hr_h (r_clock s1) (e_user (hr_env 1 0)) (r_old s1) (r_oo s1) x1 < / 1000000).
  { destruct (plain_loop_terminates ex_p ltac:(apply W) ltac:(apply W) ltac:(apply W)) as (n & _ & He & Hz & Hk).
    assert (L : (1 <= n)%nat). { destruct n; [|lia]. exfalso. cbn in Hz. rnum. lra. }
    destruct (step_terms_h hr_h (hr_env 1) ex_s0 ex_p 0 eq_refl W (or_intror eq_refl) ltac:(intros; apply Hk; lia) (or_introl eq_refl)) as (Ht & delta & Hd & E).
    destruct (E (fst x1) eq_refl) as [E1 E2]. clear E.
    set (r := system_rhs_h hr_h (r_clock s1) (e_user (hr_env 1 0)) (r_old s1) (r_oo s1) x1).
    assert (T := residual_tested hr_h (r_clock s1) (e_user (hr_env 1 0)) (r_old s1) (r_oo s1) x1 _ _ Ht eq_refl eq_refl hr_range (Ad (fst r 0%nat) 0)).
    cbv zeta in T. fold r in T. change (h_pb hr_h) with hr_pb in T, E1, E2.
    change (r_old s1) with (r_sol (run_h hr_h (hr_env 1) 0 ex_s0)) in T. change (r_oo s1) with (r_old (run_h hr_h (hr_env 1) 0 ex_s0)) in T.
    change (r_clock s1) with (r_clock (run_h hr_h (hr_env 1) 1 ex_s0)) in T. rewrite E1, E2 in T.
    assert (T2 := eq_trans T (hr_power 1 delta (fst r 0%nat) (fun i => if Nat.eqb i 0 then fst r 0%nat else if Nat.eqb i 2 then fst r 0%nat / 2 else 0) (fun _ => 0) eq_refl eq_refl eq_refl)). clear T. rename T2 into T.
    change (pb_nu hr_pb) with 3%nat in T. change (pb_np hr_pb) with 2%nat in T. cbn [sumn Nat.eqb] in T.
    assert (K0 : forall tm g, const_rhs_h hr_h tm g = 0) by (intros tm g; unfold const_rhs_h, const_rhs; cbn; ring).
    assert (R1 : fst r 1%nat = 0). { cbn -[cell_terms const_rhs_h]. rewrite K0. lra. }
    assert (R2 : fst r 2%nat = 0). { cbn -[cell_terms const_rhs_h]. rewrite K0. lra. }
    assert (P : forall i, snd r i = 0).
    { intros i. unfold r, system_rhs_h. cbn [snd]. unfold average_projection. change (pb_m0 (h_pb hr_h)) with (@None mode). change (pb_m1 (h_pb hr_h)) with (@None mode).
      assert (K : forall j, condense (pb_np (h_pb hr_h)) (h_p hr_h) (snd (cell_terms hr_h (r_clock s1) (r_old s1) (r_oo s1) x1)) j = 0).
      { intros j. unfold condense. apply sumn_zero. intros k _. apply suml_zero. intros mw _. destruct (Nat.eqb (fst mw) j); [|reflexivity].
        unfold cell_terms. destruct (system_rhs_form (without_constraints (h_pb hr_h)) (r_clock s1) field_zero (r_old s1) (r_oo s1) x1 Ht eq_refl eq_refl) as [_ B]. rewrite B.
        unfold without_means. cbn [without_constraints pb_m0 pb_m1 without_mean]. unfold continuity_defect. cbn. ring. }
      destruct (_ && _); cbn [project_mode]; rewrite K; cbn; ring. }
    unfold compute_residual_h. rewrite norm_of_parts. fold r. change (pb_nu (h_pb hr_h)) with 3%nat. change (pb_np (h_pb hr_h)) with 2%nat. cbn [sumn].
    rewrite R1, R2, !P in *. set (a := fst r 0%nat) in *. clearbody a. clear - T Hd.
    assert (Ha : a = 0 \/ a = - delta * (9 / 2)).
    { destruct (Req_dec a 0) as [->|Na]; [left; reflexivity|right]. apply Rmult_eq_reg_r with a; [|exact Na]. lra. }
    match goal with |- sqrt ?e < _ => replace e with (Rsqr a) by (unfold Rsqr; ring) end. rewrite sqrt_Rsqr_abs.
    assert (Hd1 := Rle_abs delta). assert (Hd2 := Rle_abs (- delta)). rewrite Rabs_Ropp in Hd2.
    destruct Ha as [->| ->]; [rewrite Rabs_R0; lra|]. unfold Rabs. destruct (Rcase_abs _); lra. }
  unfold report_h, advance_time_step_h, evaluate_time_step, solve_nonlinear_system. cbn [snd r_outcome run_h]. fold s1.
  match goal with |- context [nl_loop field field_add field_zero ?n ?o ?f ?q ?k ?l] =>
    destruct (loop_implicit field_add field_zero o f q k eq_refl n l ltac:(cbn; lia)) as [A B]; set (s2 := nl_loop field field_add field_zero n o f q k l) in * end.
  assert (Ex : ls_solution field s2 = x1).
  { unfold x1. cbn [run_h]. unfold advance_time_step_h, evaluate_time_step, solve_nonlinear_system. cbn [fst r_sol r_solution]. fold s1. unfold shift_pressure_h.
    change (pb_fix (h_pb hr_h)) with false. cbv iota. reflexivity. }
  cbn [oracles_h o_residual] in A. rewrite Ex in A. rewrite <- A in Small.
  change (nltb (n:=RNum) (ls_res field s2) (fp_tol_nl_iteration (pb_fp (h_pb hr_h)))) with (Rltb (ls_res field s2) (/ 1000000)) in B.
  destruct (Rltb_spec (ls_res field s2) (/ 1000000)) as [_|Q]; [|exfalso; apply Q, Small].
  cbn [ls_step] in B. change (Z.to_nat (fp_max_nl_iteration (pb_fp (h_pb hr_h)))) with 1%nat in B. change (fp_max_nl_iteration (pb_fp (h_pb hr_h))) with 1%Z.
  assert (E : ls_step field s2 = 0%Z) by lia. rewrite E. cbn. discriminate.
Qed.
(** with a linear solver that returns a wrong update the step reports failure *)
Example C127_rejected : report_h hr_h (hr_env 0) 0 ex_s0 = (0, 0)%Z /\ pb_m0 (h_pb hr_h) = None /\ pb_m1 (h_pb hr_h) = None /\
  (forall i, is_free (lines_u hr_h) i = false -> fst (e_user (hr_env 0 0)) i = 0) /\ (forall i, is_free (h_p hr_h) i = false -> snd (e_user (hr_env 0 0)) i = 0).
Proof.
  destruct C127_nonvacuous as (H0 & W & F & C1 & C2 & Rg & Q1 & Q2 & _).
  split; [|split; [reflexivity|split; [reflexivity|split]]].
  - assert (Dec : forall P : Z * Z, {P = (0, 0)%Z} + {P <> (0, 0)%Z}) by (intros P; decide equality; apply Z.eq_dec).
    destruct (Dec (report_h hr_h (hr_env 0) 0 ex_s0)) as [E|Rep]; [exact E|exfalso].
    destruct (C127_constrained_run hr_h (hr_env 0) ex_s0 ex_p H0 W (or_intror eq_refl) eq_refl eq_refl ltac:(cbn; lia) F C1 C2 Rg Q1 Q2) as (n & _ & _ & _ & Hz & He & Hk).
    assert (L : (1 <= n)%nat). { destruct n; [|lia]. exfalso. rewrite Hz in He. cbn in He. lra. }
    destruct (Hk 1%nat ltac:(lia)) as (_ & _ & _ & _ & delta & Hd & Q & _). change (1 - 1)%nat with 0%nat in Q. specialize (Q Rep).
    set (V := fun i => if Nat.eqb i 0 then 1 else if Nat.eqb i 2 then 1 / 2 else 0).
    assert (Ad : admissible hr_h V (fun _ => 0)).
    { split; [|split].
      - intros [|[|[|i]]] l Hl; cbn in Hl; [discriminate Hl|injection Hl as <-; reflexivity|injection Hl as <-; cbn; lra|discriminate Hl].
      - intros [|[|i]] l Hl; cbn in Hl; [discriminate Hl|injection Hl as <-; cbn; lra|discriminate Hl].
      - intros m [Hm|Hm]; discriminate Hm. }
    specialize (Q V (fun _ => 0) Ad). assert (P := hr_power 0 delta 1 V (fun _ => 0) eq_refl eq_refl eq_refl). cbv zeta in P.
    assert (Q' : Rabs ((9 / 2 - (1 + delta) * (9 / 4) * (0 + 1)) * 1) <= / 1000000 * magnitude hr_h V (fun _ => 0)) by (rewrite <- P; exact Q). clear P Q.
    assert (M : magnitude hr_h V (fun _ => 0) <= 2).
    { unfold magnitude. change (pb_nu (h_pb hr_h)) with 3%nat. change (pb_np (h_pb hr_h)) with 2%nat. unfold V. cbn [sumn Nat.eqb].
      apply Rle_trans with (sqrt (Rsqr 2)); [apply sqrt_le_1_alt; unfold Rsqr; lra|right; apply sqrt_Rsqr; lra]. }
    assert (Hd1 := Rle_abs delta). assert (Hd3 := Rle_abs ((9 / 2 - (1 + delta) * (9 / 4) * (0 + 1)) * 1)). lra.
  - intros [|[|[|i]]] Hi; try discriminate Hi; reflexivity.
  - reflexivity.
Qed.
(** the hypotheses of C127_constrained_linearized can be met *)
Definition hr_h2 : hproblem unit :=
  MkHanging (MkProblem (pb_fp ex_pb2) 1 3 2 [ex_site] (pb_conditions hr_pb) (pb_faces hr_pb) (fun _ => None) [] (fun _ => false) None None false) hr_lines hr_lines_p.
Definition hr_reliable : environment :=
  MkEnv (ex_krylov false 0) (fun _ tol _ _ => MkKrylov (N:=RNum) field 1%Z 0 (fun i => if Nat.eqb i 0 then 1 else 0, fun _ => 0) (Rltb 0 tol))
    (fun _ => MkKrylov (N:=RNum) field 0%Z 0 field_zero false) (fun _ => 0) (fun i => if Nat.eqb i 0 then 9 / 2 else 0, fun _ => 0).
Example C127_linearized_nonvacuous : reliable_h hr_h2 hr_reliable ex_s0 /\ level_is_force_free hr_h2 /\ closed (h_u hr_h2) /\ closed (h_p hr_h2) /\ in_range hr_h2 /\
  linearized (fp_linearization (pb_fp (h_pb hr_h2))) = true.
Proof.
  destruct hr_closed as [C1 C2].
  split; [|split; [intros m V Hf; discriminate Hf|split; [exact C1|split; [exact C2|split; [exact hr_range|reflexivity]]]]].
  split; [intros b tol g k K; discriminate K|]. split; [|split; [|cbn; lia]].
  2: { intros b g k. cbn. destruct (Rltb_spec 0 (/ 1000000)) as [?|Q]; [reflexivity|exfalso; lra]. }
  intros b tol g k K. cbn [hr_reliable e_strong k_iterate k_converged] in *. destruct (Rltb_spec 0 tol) as [L|?]; [|discriminate K]. clear K. cbv zeta.
  set (s1 := init_time_advance_h hr_h2 ex_s0). set (d := (fun i : nat => if Nat.eqb i 0 then 1 else 0, fun _ : nat => 0) : field).
  assert (Du : forall i, is_free (lines_u hr_h2) i = false -> fst d i = 0) by (intros [|[|[|i]]] Hi; try discriminate Hi; reflexivity).
  assert (Dp : forall i, is_free (h_p hr_h2) i = false -> snd d i = 0) by reflexivity.
  split; [|split; assumption].
  assert (T : tau1 (r_clock s1) = 1). { cbn. unfold Q2R. cbn. lra. }
  assert (Wt : weight (r_clock s1) = 1).
  { cbn [s1 init_time_advance_h r_clock ex_s0]. unfold weight. cbn [next weight_val].
    assert (Nw : next_new_weight (ts_init ex_p) = 1).
    { unfold next_new_weight, next_uses_bdf, next_step, next_hits_end, next_s, not_at_start. cbn. rnum. destruct (Reqb_spec 0 0) as [_|?]; [|congruence]. cbn.
      unfold Q2R. cbn. match goal with |- context [Rltb ?a ?b] => destruct (Rltb_spec a b) as [?|Q] end; [field|exfalso; apply Q; lra]. }
    unfold next_weight_changes. rewrite Nw. cbn. rnum. unfold Q2R. cbn.
    match goal with |- context [Rltb ?a ?b] => destruct (Rltb a b) end; [reflexivity|field]. }
  set (y := field_add (r_sol s1) (distribute_update_h hr_h2 d)).
  destruct (matrix_step hr_h2 (r_clock s1) (e_user hr_reliable) (r_old s1) (r_oo s1) (r_sol s1) d eq_refl C1 C2 Du Dp) as [A B]. fold y in A, B.
  set (r := system_rhs_h hr_h2 (r_clock s1) (e_user hr_reliable) (r_old s1) (r_oo s1) y) in *.
  assert (Gz : forall u a e, gradient_at (h_pb hr_h2) u ex_site a e = 0) by (intros u a e; unfold gradient_at; apply sumn_zero; intros j _; cbn; ring).
  assert (Tz : forall a u e, transport (h_pb hr_h2) a u ex_site e = 0).
  { intros a u e. unfold transport. change (fp_beta (pb_fp (h_pb hr_h2))) with 0. rewrite sumn_zero; [ring|]. intros e1 _. rewrite Gz. ring. }
  assert (Dz : forall u, divergence_at (h_pb hr_h2) u ex_site = 0) by (intros u; unfold divergence_at; apply sumn_zero; intros; apply Gz).
  set (V := fun i : nat => if Nat.eqb i 0 then 1 else if Nat.eqb i 2 then 1 / 2 else 0).
  assert (Ad : admissible hr_h2 V (fun _ => 0)).
  { split; [|split].
    - intros [|[|[|i]]] l Hl; cbn in Hl; [discriminate Hl|injection Hl as <-; reflexivity|injection Hl as <-; cbn; lra|discriminate Hl].
    - intros [|[|i]] l Hl; cbn in Hl; [discriminate Hl|injection Hl as <-; cbn; lra|discriminate Hl].
    - intros m [Hm|Hm]; discriminate Hm. }
  assert (Tt := residual_tested hr_h2 (r_clock s1) (e_user hr_reliable) (r_old s1) (r_oo s1) y V (fun _ => 0) T eq_refl eq_refl hr_range Ad). cbv zeta in Tt. fold r in Tt.
  assert (Y : fst y 0%nat = 1 /\ fst y 1%nat = 1 /\ fst y 2%nat = 1).
  { assert (X0 : fst (r_sol s1) 0%nat = 0). { cbn. unfold extrapolate. rnum. ring. }
    assert (X1 : fst (r_sol s1) 1%nat = 1) by exact ex_time.
    assert (X2 : fst (r_sol s1) 2%nat = 1 / 2 * fst (r_sol s1) 0%nat + (1 / 2 * fst (r_sol s1) 1%nat + 0)) by reflexivity.
    unfold y. cbn [field_add fst]. rewrite X2, X0, X1. cbn. lra. }
  destruct Y as (Y0 & Y1 & Y2).
  assert (Vp : virtual_power hr_h2 (now (r_clock s1)) (weighted (h_pb hr_h2) (r_clock s1) (fst y) (fst (r_old s1)) (fst (r_oo s1)))
     (convective_with (h_pb hr_h2) (convecting (r_clock s1) (fst (r_old s1)) (fst (r_oo s1))) (fst y)) (e_user hr_reliable) y V (fun _ => 0) = 0).
  { unfold virtual_power, external_power, inner_power, volume_defect. change (pb_sites (h_pb hr_h2)) with [ex_site]. change (pb_ofaces (h_pb hr_h2)) with (@nil (oface unit)).
    cbn [suml]. rewrite !Dz. change (pb_dim (h_pb hr_h2)) with 1%nat. cbn [sumn]. unfold sym. rewrite !Gz.
    unfold convective_with. change (fp_linearization (pb_fp (h_pb hr_h2))) with coupled_velocity_semi_implicit. cbv iota. rewrite Tz. unfold weighted. rewrite Wt.
    assert (Vy : velocity_at (h_pb hr_h2) (fst y) ex_site 0 = 3).
    { unfold velocity_at. change (pb_nu (h_pb hr_h2)) with 3%nat. cbn [sumn]. rewrite Y0, Y1, Y2. cbn. ring. }
    assert (Vv : velocity_at (h_pb hr_h2) V ex_site 0 = 3 / 2).
    { unfold velocity_at, V. change (pb_nu (h_pb hr_h2)) with 3%nat. cbn. lra. }
    assert (Vz : velocity_at (h_pb hr_h2) (fst (r_old s1)) ex_site 0 = 0 /\ velocity_at (h_pb hr_h2) (fst (r_oo s1)) ex_site 0 = 0).
    { split; unfold velocity_at; apply sumn_zero; intros j _; cbn; ring. }
    destruct Vz as [Vo Voo]. rewrite Vy, Vv, Vo, Voo. change (pb_nu (h_pb hr_h2)) with 3%nat. change (pb_np (h_pb hr_h2)) with 2%nat. cbn [sumn]. unfold V. cbn. lra. }
  rewrite Vp in Tt. clear Vp.
  assert (K0 : forall tm g, const_rhs_h hr_h2 tm g = 0) by (intros tm g0; unfold const_rhs_h, const_rhs; cbn; ring).
  assert (R1 : fst r 1%nat = 0). { unfold r. cbn -[cell_terms const_rhs_h]. rewrite K0. lra. }
  assert (R2 : fst r 2%nat = 0). { unfold r. cbn -[cell_terms const_rhs_h]. rewrite K0. lra. }
  change (pb_nu (h_pb hr_h2)) with 3%nat in Tt. change (pb_np (h_pb hr_h2)) with 2%nat in Tt. unfold V in Tt. cbn [sumn Nat.eqb] in Tt. rewrite R1, R2 in Tt.
  assert (R0 : fst r 0%nat = 0) by lra. clear Tt.
  assert (P : forall i, snd r i = 0).
  { intros i. unfold r, system_rhs_h. cbn [snd]. unfold average_projection. change (pb_m0 (h_pb hr_h2)) with (@None mode). change (pb_m1 (h_pb hr_h2)) with (@None mode).
    assert (K : forall j, condense (pb_np (h_pb hr_h2)) (h_p hr_h2) (snd (cell_terms hr_h2 (r_clock s1) (r_old s1) (r_oo s1) y)) j = 0).
    { intros j. unfold condense. apply sumn_zero. intros k0 _. apply suml_zero. intros mw _. destruct (Nat.eqb (fst mw) j); [|reflexivity].
      unfold cell_terms. destruct (system_rhs_form (without_constraints (h_pb hr_h2)) (r_clock s1) field_zero (r_old s1) (r_oo s1) y T eq_refl eq_refl) as [_ B0]. rewrite B0.
      unfold without_means. cbn [without_constraints pb_m0 pb_m1 without_mean]. unfold continuity_defect. cbn. ring. }
    destruct (_ && _); cbn [project_mode]; rewrite K; cbn; ring. }
  rewrite norm_of_parts. change (pb_nu (h_pb hr_h2)) with 3%nat. change (pb_np (h_pb hr_h2)) with 2%nat. cbn [sumn]. rewrite <- !A, <- !B, R0, R1, R2, !P.
  match goal with |- sqrt ?e <= _ => replace e with 0 by ring end. rewrite sqrt_0. lra.
Qed.
