(** * C121: what the time schemes of the flow solver compute *)
From Coq Require Import Reals List Bool Arith ZArith Lra Lia.
From Coq Require Import FunctionalExtensionality.
From Verif Require Import Num SumR Model_Parameters Model_TimeStepping Spec_TimeStepping Proofs_TimeStepping Proofs_TimeStepping2.
From Verif Require Import Model_NonlinearSolver Properties_NonlinearSolver Model_NSOperator Properties_NSOperator.
From Verif Require Import Model_BoundaryValues Properties_BoundaryValues Model_Run Properties_Run Model_ThetaSchemes.
Import ListNotations.
Open Scope R_scope.

(** ** Specification *)
(** the share of the new time level in a one-step theta scheme; BDF-2 evaluates everything at the new one *)
Definition theta (sch : scheme) : R := match sch with explicit_euler => 0 | crank_nicolson => 1 / 2 | implicit_euler | bdf_2 => 1 end.
Section Spec.
Context {point : Type}.
Variable pb : problem point.
(** convective and viscous force of a velocity, tested with velocity shape function i *)
Definition flow_force (conv : site -> nat -> R) (u : vec) (i : nat) : R :=
  suml (pb_sites pb) (fun s => st_JxW s * (sumn (pb_dim pb) (fun d => st_rho s * conv s d * st_phi s i d)
    + 2 * st_mu s * sumn (pb_dim pb) (fun d => sumn (pb_dim pb) (fun e => sym (gradient_at pb u s) d e * sym (st_dphi s i) d e)))).
(** external force, minus the change of momentum, damping, grad-div stabilization and pressure *)
Definition other_force (time : R) (dudt : site -> nat -> R) (force : vec) (x : field) (i : nat) : R :=
  force i - external_load pb time i - suml (pb_sites pb) (fun s => st_JxW s *
    (sumn (pb_dim pb) (fun d => (st_rho s * dudt s d - st_damping s * velocity_at pb (fst x) s d) * st_phi s i d)
     + (fp_tau_grad_div (pb_fp pb) * divergence_at pb (fst x) s - pressure_at pb (snd x) s) * test_divergence pb s i)).
(** the one-step theta scheme: convection and viscosity are a mean of the two time levels *)
Definition scheme_defect (th : R) (time : R) (dudt conv conv_old : site -> nat -> R) (force : vec) (x : field) (old : vec) (i : nat) : R :=
  other_force time dudt force x i - th * flow_force conv (fst x) i - (1 - th) * flow_force conv_old old i.
(** the same without the old time level *)
Definition kept_defect (th : R) (time : R) (dudt conv : site -> nat -> R) (force : vec) (x : field) (i : nat) : R :=
  other_force time dudt force x i - th * flow_force conv (fst x) i.
Definition kept_norm (th : R) (time : R) (dudt conv : site -> nat -> R) (user x : field) : R :=
  sqrt (sumn (pb_nu pb) (fun i => (if dirichlet_dof pb i then fst user i else kept_defect th time dudt conv (fst user) x i) ^ 2)
        + sumn (pb_np pb) (fun i => without_means pb (continuity_defect pb (snd user) x) i ^ 2)).
Definition free_kept_norm (th : R) (time : R) (dudt conv : site -> nat -> R) (user x : field) : R :=
  sqrt (sumn (pb_nu pb) (fun i => if dirichlet_dof pb i then 0 else kept_defect th time dudt conv (fst user) x i ^ 2)
        + sumn (pb_np pb) (fun i => without_means pb (continuity_defect pb (snd user) x) i ^ 2)).

(** sanity: with theta = 1 this is the weak form of the Navier-Stokes equations of C108 *)
Lemma scheme_defect_implicit time dudt conv conv_old force x old i :
  scheme_defect 1 time dudt conv conv_old force x old i = momentum_defect pb time dudt conv force x i.
Proof.
  unfold scheme_defect, other_force, flow_force, momentum_defect.
  match goal with |- ?f - ?l - ?a - 1 * ?b - (1 - 1) * ?e = ?f - ?l - ?g => assert (G : g = a + b); [|rewrite G; ring] end.
  rewrite <- suml_plus. apply suml_ext. intros s _.
  rewrite <- Rmult_plus_distr_l. f_equal.
  rewrite (sumn_ext (pb_dim pb) (fun d => (st_rho s * (dudt s d + conv s d) - st_damping s * velocity_at pb (fst x) s d) * st_phi s i d)
     (fun d => (st_rho s * dudt s d - st_damping s * velocity_at pb (fst x) s d) * st_phi s i d + st_rho s * conv s d * st_phi s i d)) by (intros; ring).
  rewrite sumn_plus. ring.
Qed.
End Spec.

(** ** The residual of the program for every clock *)
Section Step.
Context {point : Type}.
Variable pb : problem point.
Lemma theta_rhs_form (c : clock RNum) (user old oo x : field) :
  fp_physical_type (pb_fp pb) = incompressible -> is_proj (fp_linearization (pb_fp pb)) = false ->
  let r := fst (system_rhs pb c user old oo x) in
  (forall i, fst r i = if dirichlet_dof pb i then fst user i
     else kept_defect pb (tau1 c) (now c) (weighted pb c (fst x) (fst old) (fst oo)) (convective_with pb (convecting c (fst old) (fst oo)) (fst x)) (fst user) x i) /\
  (forall i, snd r i = without_means pb (continuity_defect pb (snd user) x) i).
Proof.
  intros Hi Hp r. unfold r, system_rhs. clear r.
  match goal with |- context [residual ?s ?m0 ?m1 ?pts ?cu ?cp ?fu ?fp ?U ?P] =>
    destruct (residual s m0 m1 pts cu cp fu fp U P) as [[ru rp] pts'] eqn:E; destruct (C55_residual_weak_form s m0 m1 pts cu cp fu fp U P ru rp pts' E) as (A & B & C) end.
  clear E. cbn [fst snd]. split; intros i.
  - destruct (dirichlet_dof pb i) eqn:D.
    + rewrite (B i D), const_rhs_load, D. ring.
    + rewrite (A i D), const_rhs_load, D. unfold kept_defect, other_force, flow_force. 
      match goal with |- ?f - ?l - ?g = ?f - ?l - ?a - ?th * ?b => assert (G : g = a + th * b); [|rewrite G; ring] end.
      rewrite <- suml_scal, <- suml_plus. rewrite map_map, suml_map. cbn [fst]. apply suml_ext. intros s _.
      cbn [s_type setting_at]. rewrite Hi. cbn [is_stokes_type JxW point_at]. unfold stress_form. cbn [s_tau1 setting_at dim mu dphi tau_grad_div point_at].
      set (W := weighted pb c (fst x) (fst old) (fst oo)). set (V := convective_with pb (convecting c (fst old) (fst oo)) (fst x)).
      assert (I1 : sumn (pb_dim pb) (fun d => (rho (point_at pb (fst old) (fst oo) s) * inertia (setting_at pb c) (point_at pb (fst old) (fst oo) s)
            (eval_value (setting_at pb c) (point_at pb (fst old) (fst oo) s) (fst x)) (eval_gradient (setting_at pb c) (point_at pb (fst old) (fst oo) s) (fst x)) d
            - damping (point_at pb (fst old) (fst oo) s) * eval_value (setting_at pb c) (point_at pb (fst old) (fst oo) s) (fst x) d) * phi (point_at pb (fst old) (fst oo) s) i d)
          = sumn (pb_dim pb) (fun d => (st_rho s * W s d - st_damping s * velocity_at pb (fst x) s d) * st_phi s i d) + tau1 c * sumn (pb_dim pb) (fun d => st_rho s * V s d * st_phi s i d)).
      { rewrite <- sumn_scal, <- sumn_plus. apply sumn_ext. intros d _. cbn [rho damping phi point_at].
        assert (In : inertia (setting_at pb c) (point_at pb (fst old) (fst oo) s) (eval_value (setting_at pb c) (point_at pb (fst old) (fst oo) s) (fst x))
                       (eval_gradient (setting_at pb c) (point_at pb (fst old) (fst oo) s) (fst x)) d = W s d + tau1 c * V s d).
        { unfold inertia. cbn [s_type s_lin s_tau1 setting_at]. rewrite Hi. f_equal. f_equal. unfold V, convective_with.
          assert (Ev : forall d, old_value (point_at pb (fst old) (fst oo) s) d * factor_extrapol_old c + old_old_value (point_at pb (fst old) (fst oo) s) d * factor_extrapol_old_old c
                       = velocity_at pb (convecting c (fst old) (fst oo)) s d).
          { intros d0. unfold convecting, extrapolate. symmetry. exact (velocity_lin pb (fst old) (fst oo) (factor_extrapol_old c) (factor_extrapol_old_old c) s d0). }
          assert (Eg : forall d e, old_gradient (point_at pb (fst old) (fst oo) s) d e * factor_extrapol_old c + old_old_gradient (point_at pb (fst old) (fst oo) s) d e * factor_extrapol_old_old c
                       = gradient_at pb (convecting c (fst old) (fst oo)) s d e).
          { intros d0 e0. unfold convecting, extrapolate. symmetry. exact (gradient_lin pb (fst old) (fst oo) (factor_extrapol_old c) (factor_extrapol_old_old c) s d0 e0). }
          unfold convection, transport, divergence_at, trace. cbn [dim beta extrapol_old extrapol_old_old setting_at].
          destruct (fp_linearization (pb_fp pb)); try discriminate Hp; rewrite Rplus_comm;
            first [reflexivity|apply f_equal2; [apply sumn_ext; intros e _; rewrite Ev, ?Eg; reflexivity|apply f_equal2; [apply f_equal2; [reflexivity|apply sumn_ext; intros e _; apply Eg]|first [reflexivity|apply Ev]]]]. }
        rewrite In. change (eval_value (setting_at pb c) (point_at pb (fst old) (fst oo) s) (fst x) d) with (velocity_at pb (fst x) s d). ring. }
      cbv beta. etransitivity; [apply f_equal, (f_equal2 Rplus); [exact I1|reflexivity]|]. clear I1.
      assert (I2 : contract (pb_dim pb) (eps_sym (eval_gradient (setting_at pb c) (point_at pb (fst old) (fst oo) s) (fst x))) (eps_sym (st_dphi s i))
          = sumn (pb_dim pb) (fun d => sumn (pb_dim pb) (fun e => sym (gradient_at pb (fst x) s) d e * sym (st_dphi s i) d e))).
      { unfold contract. apply sumn_ext. intros d _. apply sumn_ext. intros e _. unfold eps_sym, sym, eval_gradient, gradient_at. cbn. field. }
      match goal with |- context [contract ?a ?b ?e] => change (contract a b e) with (contract (pb_dim pb) (eps_sym (eval_gradient (setting_at pb c) (point_at pb (fst old) (fst oo) s) (fst x))) (eps_sym (st_dphi s i))) end.
      rewrite I2.
      change (trace (pb_dim pb) (eval_gradient (setting_at pb c) (point_at pb (fst old) (fst oo) s) (fst x))) with (divergence_at pb (fst x) s).
      change (eval_pressure (setting_at pb c) (point_at pb (fst old) (fst oo) s) (snd x)) with (pressure_at pb (snd x) s).
      change (trace (pb_dim pb) (st_dphi s i)) with (test_divergence pb s i). ring.
  - rewrite C. unfold average_projection, without_means. cbn [s_lin s_type n_p setting_at]. rewrite Hp, Hi. cbn [negb andb is_stationary_type].
    assert (Em : forall m v j, project_mode (pb_np pb) m v j = without_mean pb m v j).
    { intros [m|] v j; [|reflexivity]. cbn. unfold dot. ring. }
    assert (Ec : (fun j => snd user j - 0 - (if constrained_p (setting_at pb c) j || false then 0 else
        suml (map fst (map (fun s => (point_at pb (fst old) (fst oo) s, nothing_stored)) (pb_sites pb))) (fun q => JxW q * (- trace (pb_dim pb) (eval_gradient (setting_at pb c) q (fst x)) * psi q j))))
       = continuity_defect pb (snd user) x).
    { apply functional_extensionality. intros j. unfold continuity_defect. rewrite orb_false_r. cbn [constrained_p setting_at]. destruct (pb_con_p pb j); [ring|].
      rewrite map_map, suml_map. cbn [fst]. unfold Rminus. rewrite Ropp_0, Rplus_0_r. f_equal.
      rewrite <- (Rmult_1_l (suml _ _)), <- Ropp_mult_distr_l_reverse, <- suml_scal. apply suml_ext. intros s _. cbn. unfold divergence_at, trace, gradient_at, eval_gradient. cbn. ring. }
    rewrite Em. f_equal. transitivity (project_mode (pb_np pb) (pb_m0 pb) (continuity_defect pb (snd user) x)); [rewrite <- Ec; reflexivity|].
    apply functional_extensionality. intros j. apply Em.
Qed.
End Step.

Section Main.
Context {point : Type}.
Variable pb : problem point.
Lemma kept_split th time dudt conv force (x : field) i :
  kept_defect pb th time dudt conv force x i = momentum_defect pb time dudt conv force x i + (1 - th) * flow_force pb conv (fst x) i.
Proof. rewrite <- (scheme_defect_implicit pb time dudt conv conv force x (fst x) i). unfold scheme_defect, kept_defect. ring. Qed.
Lemma kept_shift th amount time dudt conv force (x : field) i : shift_is_force_free pb -> dirichlet_dof pb i = false ->
  kept_defect pb th time dudt conv force (shift_pressure pb amount x) i = kept_defect pb th time dudt conv force x i.
Proof. intros F D. rewrite !kept_split, shift_velocity, (momentum_shift pb _ _ _ _ _ _ _ F D). reflexivity. Qed.
Lemma kept_norm_shift th amount time dudt conv user (x : field) : shift_is_force_free pb ->
  kept_norm pb th time dudt conv user (shift_pressure pb amount x) = kept_norm pb th time dudt conv user x.
Proof.
  intros F. unfold kept_norm. f_equal. f_equal; apply sumn_ext; intros i _; f_equal.
  - destruct (dirichlet_dof pb i) eqn:D; [reflexivity|]. apply kept_shift; assumption.
  - assert (E : continuity_defect pb (snd user) (shift_pressure pb amount x) = continuity_defect pb (snd user) x); [|rewrite E; reflexivity].
    apply functional_extensionality. intros j. unfold continuity_defect. rewrite shift_velocity. reflexivity.
Qed.
Lemma residual_is_kept (c : clock RNum) (user old oo x : field) :
  fp_physical_type (pb_fp pb) = incompressible -> is_proj (fp_linearization (pb_fp pb)) = false ->
  compute_residual pb c user old oo x =
  kept_norm pb (tau1 c) (now c) (weighted pb c (fst x) (fst old) (fst oo)) (convective_with pb (convecting c (fst old) (fst oo)) (fst x)) user x.
Proof.
  intros Hi Hp. destruct (theta_rhs_form pb c user old oo x Hi Hp) as [A B]. unfold compute_residual. rewrite norm_of_parts. unfold kept_norm.
  f_equal. f_equal; apply sumn_ext; intros i _; f_equal; [apply A|apply B].
Qed.
Lemma theta_implicit_step e (s : state) : is_implicit (fp_linearization (pb_fp pb)) = true -> fp_physical_type (pb_fp pb) = incompressible ->
  (0 < fp_max_nl_iteration (pb_fp pb) < 4294967296)%Z -> shift_is_force_free pb ->
  let c := next (r_clock s) in let x := r_sol (fst (advance_time_step pb e s)) in
  snd (advance_time_step pb e s) <> (0, 0)%Z <->
  kept_norm pb (tau1 c) (now c) (weighted pb c (fst x) (fst (r_sol s)) (fst (r_old s))) (convective_with pb (convecting c (fst (r_sol s)) (fst (r_old s))) (fst x)) (e_user e) x
    < fp_tol_nl_iteration (pb_fp pb).
Proof.
  intros Him Hty Hmax F c x. assert (Hp : is_proj (fp_linearization (pb_fp pb)) = false) by (destruct (fp_linearization (pb_fp pb)); try discriminate Him; reflexivity).
  unfold x, advance_time_step, evaluate_time_step, solve_nonlinear_system. cbn [fst snd r_sol r_solution r_outcome].
  set (s1 := init_time_advance pb s). change (next (r_clock s)) with (r_clock s1) in c. change (r_sol s) with (r_old s1). change (r_old s) with (r_oo s1).
  match goal with |- context [nl_loop field field_add field_zero ?n ?o ?f ?q ?k ?l] =>
    destruct (loop_implicit field_add field_zero o f q k Him n l ltac:(lia)) as [A B]; set (s2 := nl_loop field field_add field_zero n o f q k l) in * end.
  cbn [ls_step] in B. rewrite Z2Nat.id in B by lia.
  assert (E : ls_res field s2 = kept_norm pb (tau1 c) (now c) (weighted pb c (fst (ls_solution field s2)) (fst (r_old s1)) (fst (r_oo s1)))
      (convective_with pb (convecting c (fst (r_old s1)) (fst (r_oo s1))) (fst (ls_solution field s2))) (e_user e) (ls_solution field s2)).
  { rewrite A. cbn [oracles_at o_residual]. apply residual_is_kept; assumption. }
  clear A. rewrite shift_velocity, (kept_norm_shift _ _ _ _ _ _ _ F), <- E. clear E.
  change (nltb (n:=RNum) (ls_res field s2) (fp_tol_nl_iteration (pb_fp pb))) with (Rltb (ls_res field s2) (fp_tol_nl_iteration (pb_fp pb))) in B.
  destruct (Rltb_spec (ls_res field s2) (fp_tol_nl_iteration (pb_fp pb))) as [L|L].
  - split; [intros _; exact L|intros _]. destruct (Z.ltb_spec (ls_step field s2) (fp_max_nl_iteration (pb_fp pb))) as [_|?]; [|lia].
    unfold u32. rewrite (Z.mod_small (ls_step field s2 + 1)) by lia. intros Q. inversion Q. lia.
  - split; [|intros H; contradiction]. destruct (Z.ltb_spec (ls_step field s2) (fp_max_nl_iteration (pb_fp pb))) as [?|_]; [lia|]. intros H. exfalso. apply H. reflexivity.
Qed.
Lemma theta_linear_step e (s : state) : linearized (fp_linearization (pb_fp pb)) = true -> fp_physical_type (pb_fp pb) = incompressible ->
  (0 < fp_max_nl_iteration (pb_fp pb))%Z -> shift_is_force_free pb -> (forall i, pb_con_p pb i = false) -> reliable pb e s ->
  let c := next (r_clock s) in let x := r_sol (fst (advance_time_step pb e s)) in
  free_kept_norm pb (tau1 c) (now c) (weighted pb c (fst x) (fst (r_sol s)) (fst (r_old s))) (convective_with pb (convecting c (fst (r_sol s)) (fst (r_old s))) (fst x)) (e_user e) x
    <= linear_bound (pb_fp pb).
Proof.
  intros Hl Hty Hmax F Hc (R1 & R2 & R3 & R4) c x.
  assert (Hp : is_proj (fp_linearization (pb_fp pb)) = false) by (destruct (fp_linearization (pb_fp pb)); try discriminate Hl; reflexivity).
  assert (Hi : is_implicit (fp_linearization (pb_fp pb)) = false) by (destruct (fp_linearization (pb_fp pb)); try discriminate Hl; reflexivity).
  unfold x, advance_time_step, evaluate_time_step, solve_nonlinear_system. cbn [fst r_sol r_solution].
  set (s1 := init_time_advance pb s) in *. change (next (r_clock s)) with (r_clock s1) in c. change (r_sol s) with (r_old s1). change (r_old s) with (r_oo s1).
  match goal with |- context [nl_loop field field_add field_zero ?n ?o ?f ?q ?k ?l] =>
    destruct (loop_linearized field_add field_zero o f q k Hi n l ltac:(lia)) as [_ B]; rewrite B; clear B end.
  cbn [ls_solution ls_res ls_step].
  set (o := oracles_at pb e s1). set (tol := linear_tolerance (pb_fp pb) (o_residual field o (r_sol s1))).
  assert (Etol : tol = linear_bound (pb_fp pb)).
  { unfold tol, linear_tolerance, linear_bound. rewrite Hi. rewrite orb_true_r. destruct (fp_rel_lin_iteration (pb_fp pb)); [|reflexivity].
    rnum. unfold Q2R. cbn. lra. }
  assert (S : exists d, l_update field (solve_system field field_zero o (pb_fp pb) tol (Z.to_nat 0)) = distribute_update pb d /\
     residual_norm pb (subtract (fst (system_rhs pb c (e_user e) (r_old s1) (r_oo s1) (r_sol s1))) (system_matrix pb c (e_user e) (r_old s1) (r_oo s1) (r_sol s1) d)) <= tol).
  { unfold solve_system. assert (Hp2 : is_projection (fp_linearization (pb_fp pb)) = false) by (destruct (fp_linearization (pb_fp pb)); try discriminate Hl; reflexivity).
    rewrite Hp2. cbv zeta. destruct (k_converged field _) eqn:K.
    - eexists. split; [reflexivity|]. apply R1. exact K.
    - destruct (Z.ltb_spec (fp_iterations_before_inner_solvers (pb_fp pb)) (fp_max_lin_iteration (pb_fp pb))) as [_|?]; [|lia].
      eexists. split; [reflexivity|]. apply R2. rewrite Etol. apply R3. }
  destruct S as (d & Ed & Hd). rewrite Ed. clear Ed. rewrite Etol in Hd. clearbody tol. clear Etol tol.
  destruct (free_rows pb c (e_user e) (r_old s1) (r_oo s1) (r_sol s1) d Hl Hc) as [A B].
  destruct (theta_rhs_form pb c (e_user e) (r_old s1) (r_oo s1) (field_add (r_sol s1) (distribute_update pb d)) Hty Hp) as [C D].
  set (y := field_add (r_sol s1) (distribute_update pb d)) in *.
  apply Rle_trans with (2 := Hd). rewrite norm_of_parts. unfold free_kept_norm. rewrite shift_velocity. apply sqrt_le_1_alt. apply Rplus_le_compat; apply sumn_le; intros i _.
  - destruct (dirichlet_dof pb i) eqn:Di; [apply pow2_ge_0|]. right. rewrite (kept_shift _ _ _ _ _ _ _ _ F Di). rewrite <- (A i Di), (C i), Di. reflexivity.
  - right. rewrite <- B, D. f_equal. f_equal. apply functional_extensionality. intros j. unfold continuity_defect. rewrite shift_velocity. reflexivity.
Qed.

Variable env : nat -> environment.
Variable s0 : state.
Variable p : ts_params RNum.
Notation x := (fun k => r_sol (run_steps pb env k s0)).
Notation t := (fun k => now (r_clock (run_steps pb env k s0))).
Lemma tau1_run k : r_clock s0 = ts_init p -> tau1 (r_clock (run_steps pb env k s0)) = theta (tp_scheme p).
Proof.
  intros H0. rewrite clock_run, H0, next_n_run. destruct (scheme_constants p (repeat Next k)) as (_ & A & B & C & _). unfold theta.
  destruct (tp_scheme p); auto.
Qed.

(** A run with any of the four schemes and a fully implicit formulation: a step is reported as successful if and only if the returned fields
    fulfil, up to the tolerance, the scheme's equation without the convective and viscous force of the old time level *)
Theorem C121_run :
  r_clock s0 = ts_init p -> well_posed p ->
  fp_physical_type (pb_fp pb) = incompressible -> iterated (fp_linearization (pb_fp pb)) = true ->
  (0 < fp_max_nl_iteration (pb_fp pb) < 4294967296)%Z -> shift_is_force_free pb ->
  exists n, at_end (r_clock (run_steps pb env n s0)) = true /\ (forall k, (k < n)%nat -> at_end (r_clock (run_steps pb env k s0)) = false) /\
    INR n <= (tp_end p - tp_start p) / Rmin (tp_step_start p) (tp_step_max p) + 1 /\
    t 0%nat = tp_start p /\ t n = tp_end p /\
    forall k, (1 <= k <= n)%nat ->
      t (k - 1)%nat < t k /\
      (forall i v, prescribed (pb_conditions pb) (t k) (pb_faces pb) i v -> fst (x k) i = v) /\
      exists delta, Rabs delta <= / 1000000000000 /\
        (report pb env (k - 1) s0 <> (0, 0)%Z <->
         kept_norm pb (theta (tp_scheme p)) (t k) (derivative pb (tp_scheme p) k t x delta) (convective pb k t x) (e_user (env (k - 1)%nat)) (x k) < fp_tol_nl_iteration (pb_fp pb)).
Proof.
  intros H0 W Hty Hi Hmax F. rewrite <- iterated_is in Hi.
  assert (Ec : forall k, r_clock (run_steps pb env k s0) = next_n k (ts_init p)) by (intros k; rewrite clock_run, H0; reflexivity).
  destruct W as (W1 & W2 & W3 & W4). assert (W : well_posed p) by (repeat split; assumption).
  destruct (plain_loop_terminates p W1 W2 W4) as (n & Hn & He & Ht & Hk). exists n.
  rewrite !Ec. split; [exact He|]. split; [intros k L; rewrite Ec; apply Hk, L|]. split; [exact Hn|]. split; [reflexivity|]. split; [exact Ht|].
  intros k [K1 K2]. destruct k as [|k]; [lia|]. replace (S k - 1)%nat with k by lia.
  assert (Hj : forall j, (j < S k)%nat -> at_end (next_n j (ts_init p)) = false) by (intros; apply Hk; lia).
  split; [rewrite !Ec; apply times_increase; assumption|]. split.
  - intros i v Hv. apply (boundary_step pb (env k) (run_steps pb env k s0)); [destruct (fp_linearization (pb_fp pb)); try discriminate Hi; reflexivity|exact Hv].
  - destruct (step_terms_any pb env s0 p k H0 W Hj (or_introl Hi)) as (delta & Hd & E). exists delta. split; [exact Hd|].
    destruct (E _ eq_refl) as [E1 E2]. rewrite <- E1, <- E2, <- (tau1_run (S k) H0). exact (theta_implicit_step (env k) (run_steps pb env k s0) Hi Hty Hmax F).
Qed.
(** the same for the linearized formulations, with linear solvers that converge *)
Theorem C121_linearized_run :
  r_clock s0 = ts_init p -> well_posed p ->
  fp_physical_type (pb_fp pb) = incompressible -> linearized (fp_linearization (pb_fp pb)) = true ->
  (0 < fp_max_nl_iteration (pb_fp pb))%Z -> shift_is_force_free pb -> (forall i, pb_con_p pb i = false) ->
  exists n, at_end (r_clock (run_steps pb env n s0)) = true /\ (forall k, (k < n)%nat -> at_end (r_clock (run_steps pb env k s0)) = false) /\
    t 0%nat = tp_start p /\ t n = tp_end p /\
    forall k, (1 <= k <= n)%nat ->
      t (k - 1)%nat < t k /\
      (forall i v, prescribed (pb_conditions pb) (t k) (pb_faces pb) i v -> fst (x k) i = v) /\
      ((Z.of_nat k <= 4294967296)%Z -> reliable pb (env (k - 1)%nat) (run_steps pb env (k - 1) s0) ->
       exists delta, Rabs delta <= / 1000000000000 /\
        free_kept_norm pb (theta (tp_scheme p)) (t k) (derivative pb (tp_scheme p) k t x delta) (convective pb k t x) (e_user (env (k - 1)%nat)) (x k) <= linear_bound (pb_fp pb)).
Proof.
  intros H0 W Hty Hi Hmax F Hc.
  assert (Ec : forall k, r_clock (run_steps pb env k s0) = next_n k (ts_init p)) by (intros k; rewrite clock_run, H0; reflexivity).
  destruct W as (W1 & W2 & W3 & W4). assert (W : well_posed p) by (repeat split; assumption).
  destruct (plain_loop_terminates p W1 W2 W4) as (n & Hn & He & Ht & Hk). exists n.
  rewrite !Ec. split; [exact He|]. split; [intros k L; rewrite Ec; apply Hk, L|]. split; [reflexivity|]. split; [exact Ht|].
  intros k [K1 K2]. destruct k as [|k]; [lia|]. replace (S k - 1)%nat with k by lia.
  assert (Hj : forall j, (j < S k)%nat -> at_end (next_n j (ts_init p)) = false) by (intros; apply Hk; lia).
  split; [rewrite !Ec; apply times_increase; assumption|]. split.
  - intros i v Hv. apply (boundary_step pb (env k) (run_steps pb env k s0)); [destruct (fp_linearization (pb_fp pb)); try discriminate Hi; reflexivity|exact Hv].
  - intros Lk Rel. assert (Lk2 : (Z.of_nat k < 4294967296)%Z) by lia.
    destruct (step_terms_any pb env s0 p k H0 W Hj (or_intror Lk2)) as (delta & Hd & E). exists delta. split; [exact Hd|].
    destruct (E _ eq_refl) as [E1 E2]. rewrite <- E1, <- E2, <- (tau1_run (S k) H0). exact (theta_linear_step (env k) (run_steps pb env k s0) Hi Hty Hmax F Hc Rel).
Qed.

(** the part that is missing: a solution of the program's equation misses the scheme's equation by the forces of the old time level *)
Theorem C121_violation_missing_force : forall th time dudt conv conv_old force (y : field) (old : vec) i,
  kept_defect pb th time dudt conv force y i = 0 ->
  scheme_defect pb th time dudt conv conv_old force y old i = - ((1 - th) * flow_force pb conv_old old i).
Proof. intros th time dudt conv conv_old force y old i H. unfold scheme_defect, kept_defect in *. lra. Qed.

(** Slow motion: without damping and grad-div stabilization, a step of the program with theta > 0 is a step of the implicit Euler method whose
    length is only the theta-th part, with forces and pressure divided by theta.  (With the Crank-Nicolson scheme and without forces the flow
    at time t is the one that belongs to time t/2.) *)
Theorem C121_violation_slow_motion : forall th dt time (conv : site -> nat -> R) (force : vec) (u : vec) (pr : vec) (old : vec) i, th <> 0 -> dt <> 0 ->
  (forall s, In s (pb_sites pb) -> st_damping s = 0) -> fp_tau_grad_div (pb_fp pb) = 0 -> external_load pb time i = 0 ->
  let quotient (h : R) := fun s d => (velocity_at pb u s d - velocity_at pb old s d) / h in
  kept_defect pb th time (quotient dt) conv force (u, pr) i
  = th * momentum_defect pb time (quotient (th * dt)) conv (fun j => force j / th) (u, fun j => pr j / th) i.
Proof.
  intros th dt time conv force u pr old i Hth Hdt Hk Hg Hl quotient.
  rewrite <- (scheme_defect_implicit pb time (quotient (th * dt)) conv conv (fun j => force j / th) (u, fun j => pr j / th) u i).
  unfold kept_defect, scheme_defect, other_force. rewrite Hl, Hg. cbn [fst snd].
  match goal with |- force i - 0 - ?a - th * ?b = th * (force i / th - 0 - ?e - 1 * ?b - (1 - 1) * ?b) => assert (E : a = th * e); [|rewrite E; field; exact Hth] end.
  rewrite <- suml_scal. apply suml_ext. intros s Hs. rewrite (Hk s Hs).
  assert (P : pressure_at pb (fun j => pr j / th) s = pressure_at pb pr s / th).
  { unfold pressure_at, Rdiv. rewrite <- sumn_scal_r. apply sumn_ext. intros; ring. }
  rewrite P. rewrite <- Rmult_assoc, (Rmult_comm th), Rmult_assoc. f_equal. rewrite Rmult_plus_distr_l, <- sumn_scal. f_equal; [|field; exact Hth].
  apply sumn_ext. intros d _. unfold quotient. field. split; assumption.
Qed.

(** Explicit Euler: convection and viscosity do not act at all.  Every velocity that is free of divergence solves its own next step. *)
Theorem C121_violation_frozen_flow : forall time (conv : site -> nat -> R) (force : vec) (u : vec) i,
  (forall s, In s (pb_sites pb) -> st_damping s = 0) -> (forall s, In s (pb_sites pb) -> divergence_at pb u s = 0) -> external_load pb time i = 0 -> force i = 0 ->
  kept_defect pb (theta explicit_euler) time (fun _ _ => 0) conv force (u, fun _ => 0) i = 0 /\
  continuity_defect pb (fun _ => 0) (u, fun _ => 0) i = 0.
Proof.
  intros time conv force u i Hk Hd Hl Hf. split.
  - unfold kept_defect, other_force, theta. rewrite Hl, Hf. rewrite suml_zero; [ring|]. intros s Hs. cbn [fst snd]. rewrite (Hk s Hs), (Hd s Hs).
    assert (P : pressure_at pb (fun _ => 0) s = 0) by (unfold pressure_at; apply sumn_zero; intros; ring). rewrite P.
    rewrite sumn_zero; [ring|]. intros; ring.
  - unfold continuity_defect. cbn [fst]. destruct (pb_con_p pb i); [ring|]. rewrite suml_zero; [ring|]. intros s Hs. rewrite (Hd s Hs). ring.
Qed.

(** debug builds refuse the schemes with a part of the old time level, in the first step; release builds and the other schemes never do *)
Theorem C121_debug_refuses : forall debug, r_clock s0 = ts_init p ->
  (debug = true /\ theta (tp_scheme p) <> 1 -> checked_steps debug pb env 1 s0 = None) /\
  (debug = false \/ theta (tp_scheme p) = 1 -> forall n, checked_steps debug pb env n s0 = Some (run_steps pb env n s0)).
Proof.
  intros debug H0.
  assert (T : forall k, tau2 (r_clock (run_steps pb env k s0)) = 1 - theta (tp_scheme p)).
  { intros k. rewrite <- (tau1_run k H0). rewrite clock_run, H0, next_n_run. destruct (scheme_constants p (repeat Next k)) as (A & _).
    revert A. generalize (tau1 (run (ts_init p) (repeat Next k))) (tau2 (run (ts_init p) (repeat Next k))). intros a b A. lra. }
  assert (O : forall k e, operator_passes debug (r_clock (init_time_advance pb (run_steps pb env k s0))) = if debug then Reqb (tau2 (r_clock (run_steps pb e (S 0) s0))) 0 else true).
  { intros k e. unfold operator_passes. destruct debug; [|reflexivity].
    change (r_clock (init_time_advance pb (run_steps pb env k s0))) with (r_clock (run_steps pb env (S k) s0)). rewrite T.
    assert (T1 : tau2 (r_clock (run_steps pb e 1 s0)) = 1 - theta (tp_scheme p)) by (rewrite <- (T 1%nat), !clock_run; reflexivity). rewrite T1.
    cbn [neqb nlit RNum]. unfold Q2R. cbn. replace (0 * / 1) with 0 by lra. reflexivity. }
  split.
  - intros [-> Hn]. cbn [checked_steps]. unfold checked_time_step. change s0 with (run_steps pb env 0 s0) at 1. rewrite (O 0%nat env), T.
    destruct (Reqb_spec (1 - theta (tp_scheme p)) 0) as [E|_]; [exfalso; apply Hn; lra|reflexivity].
  - intros Hd. induction n as [|n IH]; [reflexivity|]. cbn [checked_steps]. rewrite IH. unfold checked_time_step. rewrite (O n env), T.
    destruct Hd as [-> | E]; [reflexivity|]. destruct debug; [|reflexivity]. rewrite E. destruct (Reqb_spec (1 - 1) 0) as [_|N]; [reflexivity|exfalso; apply N; lra].
Qed.
End Main.
Print Assumptions C121_run.
Print Assumptions C121_linearized_run.
Print Assumptions C121_violation_missing_force.
Print Assumptions C121_violation_slow_motion.
Print Assumptions C121_violation_frozen_flow.
Print Assumptions C121_debug_refuses.

(** ** Example: a shear flow with one unknown; density 1, viscosity 2, one step of size 1 of the Crank-Nicolson scheme from velocity 1 *)
Definition cn_p : ts_params RNum := MkTP (N:=RNum) crank_nicolson 0 1 1 1 1.
Definition cn_site : site := MkSite 1 (fun _ d => if Nat.eqb d 0 then 1 else 0) (fun _ d e => if Nat.eqb d 0 && Nat.eqb e 1 then 1 else 0) (fun _ => 0) 1 2 0.
Definition cn_pb : problem unit :=
  MkProblem (ex_fp coupled_implicit_picard) 2 1 0 [cn_site] (MkConditions (fun _ => None) (fun _ => false)) [] (fun _ => None) [] (fun _ => false) None None false.
Definition cn_update : field := (fun _ => - (1 / 2), fun _ => 0).
Definition cn_krylov : Z -> R -> field -> nat -> krylov (N:=RNum) field := fun _ _ _ _ => MkKrylov (N:=RNum) field 1%Z 0 cn_update true.
Definition cn_env (k : nat) : environment :=
  MkEnv cn_krylov cn_krylov (fun _ => MkKrylov (N:=RNum) field 0%Z 0 field_zero false) (fun _ => 0) (fun _ => 0, fun _ => 0).
Definition cn_s0 : state := MkState (ts_init cn_p) (fun _ => 1, fun _ => 0) field_zero field_zero (MkPrec 0 0 true 0).
Lemma cn_time : now (next (ts_init cn_p)) = 1.
Proof.
  unfold next, now, next_time, next_hits_end, next_s, not_at_start. cbn. rnum. destruct (Reqb_spec 0 0) as [_|?]; [|congruence]. cbn.
  unfold Q2R. cbn. match goal with |- context [Rltb ?a ?b] => destruct (Rltb_spec a b) as [?|Q] end; [reflexivity|]. exfalso. apply Q. lra.
Qed.
Lemma cn_x1 : fst (r_sol (run_steps cn_pb cn_env 1 cn_s0)) 0%nat = 1 / 2.
Proof.
  assert (G : exists g : field, fst (r_sol (run_steps cn_pb cn_env 1 cn_s0)) = fst (field_add g (distribute_update cn_pb cn_update)) /\ fst g 0%nat = 1).
  { eexists. cbn [run_steps]. unfold advance_time_step, evaluate_time_step, solve_nonlinear_system. cbn [fst r_sol r_solution cn_s0]. rewrite shift_velocity.
    change (Z.to_nat (fp_max_nl_iteration (pb_fp cn_pb))) with 1%nat. cbn [nl_loop]. cbv zeta.
    assert (U : forall tol call, l_update field (solve_system field field_zero (oracles_at cn_pb (cn_env 0) (init_time_advance cn_pb cn_s0)) (pb_fp cn_pb) tol call)
              = distribute_update cn_pb cn_update) by reflexivity.
    split.
    - cbn [cn_pb pb_fp ex_fp fp_linearization is_implicit negb].
      destruct (nltb _ _); cbn [ls_solution]; apply (f_equal fst), (f_equal (field_add _)); exact (U _ _).
    - cbn [ls_solution init_time_advance r_sol fst cn_s0 r_clock]. unfold apply_boundary_conditions_u, distribute, no_hanging. cbn. unfold extrapolate. rnum. unfold Q2R. cbn. lra. }
  destruct G as (g & -> & G0). cbn. rewrite G0. lra.
Qed.
Lemma cn_transport a u d : transport cn_pb a u cn_site d = 0.
Proof.
  unfold transport, divergence_at, gradient_at, velocity_at. change (fp_beta (pb_fp cn_pb)) with 0. change (pb_dim cn_pb) with 2%nat. change (pb_nu cn_pb) with 1%nat. cbn. destruct d; cbn; ring.
Qed.
(** flow force and other forces of the example *)
Lemma cn_flow conv (u : vec) : (forall d, conv cn_site d = 0) -> flow_force cn_pb conv u 0 = 2 * u 0%nat.
Proof.
  intros C. unfold flow_force. change (pb_sites cn_pb) with [cn_site]. change (pb_dim cn_pb) with 2%nat. cbn [suml sumn]. rewrite !C. unfold sym, gradient_at.
  change (pb_nu cn_pb) with 1%nat. cbn. field.
Qed.
Lemma cn_other time dudt (y : field) : other_force cn_pb time dudt (fun _ => 0) y 0 = - dudt cn_site 0%nat.
Proof.
  unfold other_force, external_load, test_divergence, divergence_at. change (pb_sites cn_pb) with [cn_site]. change (pb_dim cn_pb) with 2%nat. change (fp_tau_grad_div (pb_fp cn_pb)) with 0.
  cbn. ring.
Qed.
(** the step is reported as successful and returns 1/2 instead of 0, the only solution of the Crank-Nicolson equation *)
Theorem C121_violation_crank_nicolson : exists (pb : problem unit) env s0 p,
  r_clock s0 = ts_init p /\ well_posed p /\ tp_scheme p = crank_nicolson /\ fp_physical_type (pb_fp pb) = incompressible /\ iterated (fp_linearization (pb_fp pb)) = true /\
  shift_is_force_free pb /\ dirichlet_dof pb 0 = false /\
  let x k := r_sol (run_steps pb env k s0) in let t k := now (r_clock (run_steps pb env k s0)) in
  report pb env 0 s0 <> (0, 0)%Z /\ t 0%nat = 0 /\ t 1%nat = 1 /\ fst (x 0%nat) 0%nat = 1 /\ fst (x 1%nat) 0%nat = 1 / 2 /\
  forall y : field, scheme_defect pb (1 / 2) (t 1%nat) (fun s d => (velocity_at pb (fst y) s d - velocity_at pb (fst (x 0%nat)) s d) / (t 1%nat - t 0%nat))
      (transport pb (fst y) (fst y)) (transport pb (fst (x 0%nat)) (fst (x 0%nat))) (fst (e_user (env 0%nat))) y (fst (x 0%nat)) 0%nat = 0 <-> fst y 0%nat = 0.
Proof.
  exists cn_pb, cn_env, cn_s0, cn_p. assert (W : well_posed cn_p) by (unfold well_posed; cbn; rnum; lra). assert (F : shift_is_force_free cn_pb) by (intros m Hf; discriminate Hf).
  split; [reflexivity|]. split; [exact W|]. do 3 (split; [reflexivity|]). split; [exact F|]. split; [reflexivity|]. intros x t.
  assert (T1 : t 1%nat = 1) by exact cn_time. assert (T0 : t 0%nat = 0) by reflexivity. assert (X1 := cn_x1). fold (x 1%nat) in X1. assert (X0 : fst (x 0%nat) = fun _ => 1) by reflexivity.
  split; [|split; [exact T0|split; [exact T1|split; [rewrite X0; reflexivity|split; [exact X1|]]]]].
  - destruct (C121_run cn_pb cn_env cn_s0 cn_p eq_refl W eq_refl eq_refl ltac:(cbn; lia) F) as (n & _ & _ & _ & Hz & He & Hk).
    assert (L : (1 <= n)%nat). { destruct n; [|lia]. exfalso. rewrite Hz in He. cbn in He. lra. }
    destruct (Hk 1%nat ltac:(lia)) as (_ & _ & delta & Hd & Q). change (1 - 1)%nat with 0%nat in Q. apply Q. clear Q.
    unfold kept_norm. change (pb_nu cn_pb) with 1%nat. change (pb_np cn_pb) with 0%nat. cbn [sumn]. change (dirichlet_dof cn_pb 0) with false. cbv iota.
    change (tp_scheme cn_p) with crank_nicolson. unfold kept_defect, theta. change (fst (e_user (cn_env 0))) with (fun _ : nat => 0). rewrite cn_other.
    rewrite cn_flow by (intros d; unfold convective; cbn [cn_pb pb_fp ex_fp fp_linearization]; apply cn_transport).
    assert (Ed : derivative cn_pb crank_nicolson 1 t x delta cn_site 0 = - (1 / 2) + delta / 2).
    { unfold derivative, difference, lead, three_levels. cbn [scheme_eqb andb]. change (1 - 1)%nat with 0%nat. rewrite T1, T0. unfold velocity_at. change (pb_nu cn_pb) with 1%nat.
      cbn [sumn]. rewrite X1, X0. cbn. field. }
    change (derivative cn_pb crank_nicolson 1 (fun k => now (r_clock (run_steps cn_pb cn_env k cn_s0))) (fun k => r_sol (run_steps cn_pb cn_env k cn_s0)) delta cn_site 0%nat)
      with (derivative cn_pb crank_nicolson 1 t x delta cn_site 0). rewrite Ed.
    change (fst (r_sol (run_steps cn_pb cn_env 1 cn_s0)) 0%nat) with (fst (x 1%nat) 0%nat). rewrite X1.
    assert (Hd1 := Rle_abs delta). assert (Hd2 := Rle_abs (- delta)). rewrite Rabs_Ropp in Hd2.
    match goal with |- sqrt ?a < _ => replace a with (Rsqr (delta / 2)) by (unfold Rsqr; field) end.
    rewrite sqrt_Rsqr_abs. cbn. unfold Rabs. destruct (Rcase_abs (delta / 2)); lra.
  - intros y. unfold scheme_defect. change (fst (e_user (cn_env 0))) with (fun _ : nat => 0). rewrite cn_other.
    rewrite !cn_flow by (intros d; apply cn_transport). rewrite T1, T0, X0. unfold velocity_at. change (pb_nu cn_pb) with 1%nat. cbn [sumn cn_site st_phi Nat.eqb].
    generalize (fst y 0%nat). intros a. split; intros H; lra.
Qed.
Print Assumptions C121_violation_crank_nicolson.
(** the hypotheses of C121_violation_slow_motion and C121_violation_frozen_flow hold for this flow, and they are about forces that do not vanish *)
Example C121_nonvacuous :
  (forall s, In s (pb_sites cn_pb) -> st_damping s = 0) /\ fp_tau_grad_div (pb_fp cn_pb) = 0 /\ (forall time i, external_load cn_pb time i = 0) /\
  (forall u s, In s (pb_sites cn_pb) -> divergence_at cn_pb u s = 0) /\ flow_force cn_pb (fun _ _ => 0) (fun _ => 1) 0 = 2.
Proof.
  split; [intros s [<-|[]]; reflexivity|]. split; [reflexivity|]. split; [reflexivity|]. split; [|rewrite cn_flow; [lra|reflexivity]].
  intros u s [<-|[]]. unfold divergence_at, gradient_at. change (pb_nu cn_pb) with 1%nat. change (pb_dim cn_pb) with 2%nat. cbn. ring.
Qed.
