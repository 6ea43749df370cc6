(** * C114: steady flows stay as they are
    A statement about the whole run of Model_Run (C108): a flow that fulfils the stationary equations and the boundary conditions is not
    changed by the time loop, whatever the step sizes, the scheme, the number of steps and the formulation; and a flow whose stress is an
    affine function of the position (Couette and Poiseuille flow, a fluid at rest under gravity) fulfils the discrete stationary equations on
    every mesh if it fulfils the differential equations. *)
From Coq Require Import Reals List Bool Arith ZArith Lra Lia.
From Coq Require Import FunctionalExtensionality.
From Verif Require Import Num SumR Model_Parameters Model_TimeStepping Spec_TimeStepping Proofs_TimeStepping Proofs_TimeStepping2.
From Verif Require Import Model_NonlinearSolver Properties_NonlinearSolver Model_NSOperator Properties_NSOperator.
From Verif Require Import Model_BoundaryValues Properties_BoundaryValues Model_Run Properties_Run.
Import ListNotations.
Open Scope R_scope.

(** ** Specification *)
Section Spec.
Context {point : Type}.
Variable pb : problem point.
(** the velocity has the values of the boundary functions, at all times *)
Definition fits_the_boundary (X : field) : Prop :=
  forall time f i v, In f (pb_faces pb) -> prescribes (pb_conditions pb) time f i v -> fst X i = v.
(** no force on prescribed unknowns; momentum balance of a flow that does not change, at all other unknowns; incompressibility *)
Definition equilibrium (force X : field) : Prop :=
  (forall i, (i < pb_nu pb)%nat -> if dirichlet_dof pb i then fst force i = 0 else
     forall time, momentum_defect pb time (fun _ _ => 0) (transport pb (fst X) (fst X)) (fst force) X i = 0) /\
  (forall i, (i < pb_np pb)%nat -> without_means pb (continuity_defect pb (snd force) X) i = 0).
(** Krylov solvers started from zero return zero if the right-hand side of the linear system is zero *)
Definition keep_zero (e : environment) (s : state) : Prop :=
  let s1 := init_time_advance pb s in
  compute_residual pb (r_clock s1) (e_user e) (r_old s1) (r_oo s1) (r_sol s1) = 0 ->
  forall budget tol call, k_iterate field (e_cheap e budget tol field_zero call) = field_zero /\ k_iterate field (e_strong e budget tol field_zero call) = field_zero.
(** the pressure has the value at the boundary that is to be fixed *)
Definition pressure_is_fixed (e : environment) (X : field) : Prop := pb_fix pb = true -> e_shift e X = 0.
End Spec.

(** ** Pieces *)
Lemma boundary_values_fit {point} (c : conditions point) t faces i v :
  (forall f v', In f faces -> prescribes c t f i v' -> v' = v) -> boundary_values c t faces i = None \/ boundary_values c t faces i = Some v.
Proof.
  induction faces as [|f faces IH] using rev_ind; intros H; [left; reflexivity|]. rewrite boundary_values_app.
  assert (R : boundary_values c t faces i = None \/ boundary_values c t faces i = Some v) by (apply IH; intros f' v' Hin; apply H, in_app_iff; left; exact Hin).
  destruct (imposed_function c t (bf_id f)) as [g|] eqn:E; [|exact R].
  destruct (dof_on_face_dec f i) as [Hd|Hd].
  - right. apply write_dofs_some; [exact Hd|]. intros x k Hin. apply (H f); [apply in_app_iff; right; left; reflexivity|]. exists g, x, k. auto.
  - rewrite write_dofs_none by exact Hd. exact R.
Qed.
Lemma constant_difference sch k t a : difference sch k t (fun _ => a) = 0 \/ ~ (t (k - 1)%nat < t k /\ ((2 <= k)%nat -> t (k - 2)%nat < t (k - 1)%nat)).
Proof.
  unfold difference, three_levels. destruct (scheme_eqb sch bdf_2); cbn [andb]; [destruct (Nat.leb_spec 2 k) as [L|L]|].
  - destruct (Rlt_dec (t (k - 1)%nat) (t k)) as [H1|H1]; [|right; tauto]. destruct (Rlt_dec (t (k - 2)%nat) (t (k - 1)%nat)) as [H2|H2]; [|right; intros [_ Q]; auto].
    left. set (t2 := t k) in *; set (t1 := t (k - 1)%nat) in *; set (t0 := t (k - 2)%nat) in *; clearbody t0 t1 t2. field. lra.
  - left. unfold Rdiv. ring.
  - left. unfold Rdiv. ring.
Qed.

Section Steady.
Context {point : Type}.
Variable pb : problem point.
Variable X : field.
Hypothesis Hfit : fits_the_boundary pb X.

Lemma boundary_keeps time : apply_boundary_conditions_u (pb_conditions pb) time (pb_faces pb) no_hanging (fst X) = fst X.
Proof.
  apply functional_extensionality. intros i. unfold apply_boundary_conditions_u, distribute, no_hanging.
  destruct (boundary_values_fit (pb_conditions pb) time (pb_faces pb) i (fst X i)) as [-> | ->]; try reflexivity.
  intros f v Hin Hp. symmetry. exact (Hfit time f i v Hin Hp).
Qed.
Lemma distribute_zero : distribute_update pb field_zero = field_zero.
Proof.
  unfold distribute_update, field_zero. f_equal; apply functional_extensionality; intros i; cbn [fst snd].
  - unfold distribute, constraints_u, no_hanging. destruct (on_dirichlet _ _ i); reflexivity.
  - unfold masked. destruct (pb_con_p pb i); reflexivity.
Qed.
Lemma add_zero x : field_add x field_zero = x.
Proof. destruct x as [a b]. unfold field_add, field_zero. cbn [fst snd]. f_equal; apply functional_extensionality; intros i; ring. Qed.
Lemma shift_keeps e : pressure_is_fixed pb e X -> shift_pressure pb (e_shift e) X = X.
Proof.
  intros F. unfold shift_pressure. destruct (pb_fix pb) eqn:E; [|reflexivity]. rewrite (F E). destruct (pb_m0 pb); [|reflexivity].
  destruct X as [a b]. cbn [fst snd]. f_equal. apply functional_extensionality. intros i. ring.
Qed.

(** one step, when the guess is X again and the residual there is zero *)
Lemma steady_step e (s : state) : is_projection (fp_linearization (pb_fp pb)) = false -> (0 < fp_max_nl_iteration (pb_fp pb) < 4294967296)%Z ->
  0 < fp_tol_nl_iteration (pb_fp pb) -> pressure_is_fixed pb e X -> keep_zero pb e s ->
  r_sol (init_time_advance pb s) = X ->
  compute_residual pb (next (r_clock s)) (e_user e) (r_sol s) (r_old s) X = 0 ->
  r_sol (fst (advance_time_step pb e s)) = X /\ fst (snd (advance_time_step pb e s)) = 1%Z.
Proof.
  intros Hp Hm Ht Hf Hk Hg Hr. unfold keep_zero in Hk. cbv zeta in Hk. rewrite Hg in Hk.
  specialize (Hk Hr).
  unfold advance_time_step, evaluate_time_step, solve_nonlinear_system. cbn [fst snd r_sol r_solution r_outcome].
  rewrite Hg. destruct (Z.to_nat (fp_max_nl_iteration (pb_fp pb))) as [|fuel] eqn:F; [lia|]. cbn [nl_loop]. cbv zeta. cbn [ls_solution ls_res ls_n_tot ls_step ls_premature ls_trace].
  set (o := oracles_at pb e (init_time_advance pb s)).
  assert (U : forall tol call, l_update field (solve_system field field_zero o (pb_fp pb) tol call) = field_zero).
  { intros tol call. unfold solve_system. rewrite Hp. cbv zeta.
    assert (E1 : k_iterate field (o_cheap field o (budget_simple (pb_fp pb)) tol field_zero call) = field_zero) by apply (Hk (budget_simple (pb_fp pb)) tol call).
    destruct (k_converged field _); [cbn [l_update]; rewrite E1; apply distribute_zero|].
    destruct (Z.ltb _ _); cbn [l_update]; [|rewrite E1; apply distribute_zero]. rewrite E1.
    assert (E2 : k_iterate field (o_strong field o (budget_strong (pb_fp pb)) tol field_zero call) = field_zero) by apply (Hk (budget_strong (pb_fp pb)) tol call).
    rewrite E2. apply distribute_zero. }
  rewrite !U, !add_zero.
  assert (R : o_residual field o X = 0) by exact Hr. rewrite R.
  assert (One : fst (if (0 <? fp_max_nl_iteration (pb_fp pb))%Z then (u32 (0 + 1), 0%Z) else (0, 0)%Z) = 1%Z)
    by (destruct (Z.ltb_spec 0 (fp_max_nl_iteration (pb_fp pb))) as [_|?]; [reflexivity|lia]).
  destruct (negb (is_implicit (fp_linearization (pb_fp pb)))); cbn [ls_solution ls_step ls_n_tot].
  - split; [apply shift_keeps; exact Hf|]. destruct (Z.ltb_spec 0 (fp_max_nl_iteration (pb_fp pb))) as [_|?]; [reflexivity|lia].
  - assert (T : nltb (n:=RNum) 0 (fp_tol_nl_iteration (pb_fp pb)) = true) by (rnum; destruct (Rltb_spec 0 (fp_tol_nl_iteration (pb_fp pb))); [reflexivity|contradiction]).
    rewrite T. cbn [ls_solution ls_step ls_n_tot]. split; [apply shift_keeps; exact Hf|]. destruct (Z.ltb_spec 0 (fp_max_nl_iteration (pb_fp pb))) as [_|?]; [reflexivity|lia].
Qed.
End Steady.

Theorem C114_steady_flow : forall {point : Type} (pb : problem point) (env : nat -> environment) (s0 : state) (p : ts_params RNum) (X force : field) (n : nat),
  r_clock s0 = ts_init p -> well_posed p -> (tp_scheme p = bdf_2 \/ tp_scheme p = implicit_euler) ->
  fp_physical_type (pb_fp pb) = incompressible -> fp_linearization (pb_fp pb) <> projection ->
  (0 < fp_max_nl_iteration (pb_fp pb) < 4294967296)%Z -> 0 < fp_tol_nl_iteration (pb_fp pb) ->
  (Z.of_nat n <= 4294967296)%Z -> (forall k, (k < n)%nat -> at_end (r_clock (run_steps pb env k s0)) = false) ->
  (* the leading weight of the clock is the one of the formula (it is kept when it would change by less than 1e-12, C03) *)
  (forall k, (1 <= k <= n)%nat -> weight (r_clock (run_steps pb env k s0)) = lead (tp_scheme p) k (fun j => now (r_clock (run_steps pb env j s0)))) ->
  fits_the_boundary pb X -> equilibrium pb force X ->
  (forall k, (k < n)%nat -> e_user (env k) = force /\ pressure_is_fixed pb (env k) X /\ keep_zero pb (env k) (run_steps pb env k s0)) ->
  r_sol s0 = X ->
  forall k, (k <= n)%nat -> r_sol (run_steps pb env k s0) = X /\ ((k < n)%nat -> fst (report pb env k s0) = 1%Z).
Proof.
  intros point pb env s0 p X force n H0 W Hs Hty Hlin Hm Ht Hn Hend Hw Hfit [Heq1 Heq2] He HX.
  assert (Ec : forall k, r_clock (run_steps pb env k s0) = next_n k (ts_init p)) by (intros k; rewrite clock_run, H0; reflexivity).
  assert (Hp : is_projection (fp_linearization (pb_fp pb)) = false) by (destruct (fp_linearization (pb_fp pb)); try reflexivity; contradiction).
  assert (Hp' : is_proj (fp_linearization (pb_fp pb)) = false) by (destruct (fp_linearization (pb_fp pb)); try reflexivity; contradiction).
  assert (St : forall k, (k < n)%nat -> r_sol (run_steps pb env k s0) = X -> ((1 <= k)%nat -> r_old (run_steps pb env k s0) = X) ->
            r_sol (run_steps pb env (S k) s0) = X /\ fst (report pb env k s0) = 1%Z).
  { intros k Hk Hsol Hold. destruct (He k Hk) as (Eu & Ef & Ez).
    assert (Hj : forall j, (j < S k)%nat -> at_end (next_n j (ts_init p)) = false) by (intros j Hj; rewrite <- Ec; apply Hend; lia).
    assert (Cv : forall b : bool, convecting (next_n (S k) (ts_init p)) (if b then fst X else snd X) (if b then fst (r_old (run_steps pb env k s0)) else snd (r_old (run_steps pb env k s0))) = if b then fst X else snd X).
    { intros b. rewrite (convecting_at p k _ _ (fun _ => (if b then fst X else snd X, fun _ => 0)) W Hj ltac:(lia)); [|destruct b; reflexivity|intros L; rewrite (Hold L); destruct b; reflexivity].
      apply functional_extensionality. intros i. unfold predicted. cbn [fst]. destruct (3 <=? S k)%nat; destruct b; unfold Rminus; ring. }
    assert (Cu := Cv true). assert (Cp := Cv false). cbn iota in Cu, Cp.
    change (run_steps pb env (S k) s0) with (fst (advance_time_step pb (env k) (run_steps pb env k s0))). unfold report.
    assert (Ek : next (r_clock (run_steps pb env k s0)) = next_n (S k) (ts_init p)) by (rewrite Ec, <- next_n_S; reflexivity).
    apply (steady_step pb X Hfit); try assumption.
    - unfold init_time_advance. cbn [r_sol]. rewrite Ek, Hsol. unfold extrapolated. cbn [fst snd].
      unfold convecting in Cu, Cp. rewrite Cu, Cp. rewrite (boundary_keeps pb X Hfit). destruct X; reflexivity.
    - rewrite Ek, Eu, Hsol.
      assert (T1 : tau1 (next_n (S k) (ts_init p)) = 1) by (rewrite next_n_run; destruct (scheme_constants p (repeat Next (S k))) as (_ & K & _); apply K; destruct Hs; auto).
      rewrite (residual_is_defect pb _ _ _ _ _ T1 Hty Hp').
      assert (Dt : weighted pb (next_n (S k) (ts_init p)) (fst X) (fst X) (fst (r_old (run_steps pb env k s0))) = fun _ _ => 0).
      { apply functional_extensionality. intros s. apply functional_extensionality. intros d.
        destruct (weights_at p k W Hs Hj) as (delta & _ & Q). cbv zeta in Q.
        assert (Hlead : weight (next_n (S k) (ts_init p)) = lead (tp_scheme p) (S k) (fun j => now (next_n j (ts_init p)))).
        { rewrite <- Ec, (Hw (S k)) by lia. f_equal. apply functional_extensionality. intros j. rewrite Ec. reflexivity. }
        assert (Hd : delta * lead (tp_scheme p) (S k) (fun j => now (next_n j (ts_init p))) = 0).
        { specialize (Q (fun j => if Nat.eqb j (S k) then 1 else 0) 0).
          assert (Z : (1 <= k)%nat -> 0 = (fun j => if Nat.eqb j (S k) then 1 else 0) (k - 1)%nat) by (intros L; cbn beta; destruct (Nat.eqb_spec (k - 1) (S k)); [lia|reflexivity]).
          specialize (Q Z). cbn beta in Q. rewrite Nat.eqb_refl in Q. destruct (Nat.eqb_spec k (S k)) as [?|_]; [lia|]. rewrite Hlead in Q.
          unfold difference, three_levels, lead in *. replace (S k - 1)%nat with k in Q |- * by lia. rewrite Nat.eqb_refl in Q.
          destruct (Nat.eqb_spec k (S k)) as [?|_]; [lia|]. destruct (Nat.eqb_spec (S k - 2) (S k)) as [?|_]; [lia|].
          revert Q. generalize (weight_old (next_n (S k) (ts_init p))) (weight_old_old (next_n (S k) (ts_init p))).
          cut (forall t1 t2 t0 wo woo : R,
             (1 / (t2 - t1) + (if scheme_eqb (tp_scheme p) bdf_2 && (2 <=? S k)%nat then 1 / (t2 - t0) else 0)) * 1 + wo * 0 + woo * 0 =
             (if scheme_eqb (tp_scheme p) bdf_2 && (2 <=? S k)%nat then 1 * (1 / (t2 - t1) + 1 / (t2 - t0)) + 0 * ((t2 - t0) / ((t1 - t0) * (t1 - t2))) + 0 * ((t2 - t1) / ((t0 - t1) * (t0 - t2))) else (1 - 0) / (t2 - t1))
             + delta * (1 / (t2 - t1) + (if scheme_eqb (tp_scheme p) bdf_2 && (2 <=? S k)%nat then 1 / (t2 - t0) else 0)) * 1 ->
             delta * (1 / (t2 - t1) + (if scheme_eqb (tp_scheme p) bdf_2 && (2 <=? S k)%nat then 1 / (t2 - t0) else 0)) = 0).
          { intros K wo woo Q. exact (K _ _ _ _ _ Q). }
          intros t1 t2 t0 wo woo Q. destruct (scheme_eqb (tp_scheme p) bdf_2 && (2 <=? S k)%nat); unfold Rdiv in *; lra. }
        unfold weighted. specialize (Q (fun _ => velocity_at pb (fst X) s d) (velocity_at pb (fst (r_old (run_steps pb env k s0))) s d)).
        cbn beta in Q. rewrite Q; [|intros L; rewrite (Hold L); reflexivity]. rewrite Hd, Rmult_0_l, Rplus_0_r.
        destruct (constant_difference (tp_scheme p) (S k) (fun j => now (next_n j (ts_init p))) (velocity_at pb (fst X) s d)) as [Z|Z]; [exact Z|].
        exfalso. apply Z. replace (S k - 1)%nat with k by lia. split; [apply times_increase; assumption|]. intros L. destruct k as [|k']; [lia|].
        replace (S (S k') - 2)%nat with k' by lia. apply times_increase; [assumption|]. intros j Hj'. apply Hj. lia. }
      assert (Cw : convective_with pb (convecting (next_n (S k) (ts_init p)) (fst X) (fst (r_old (run_steps pb env k s0)))) (fst X) = transport pb (fst X) (fst X)).
      { rewrite Cu. unfold convective_with. destruct (fp_linearization (pb_fp pb)); reflexivity. }
      rewrite Dt, Cw. unfold defect_norm. rewrite !sumn_zero, Rplus_0_r, sqrt_0; [reflexivity| |].
      + intros i Hi. rewrite (Heq2 i Hi). ring.
      + intros i Hi. specialize (Heq1 i Hi). destruct (dirichlet_dof pb i); rewrite Heq1; ring. }
  assert (All : forall k, (k <= n)%nat -> r_sol (run_steps pb env k s0) = X /\ ((1 <= k)%nat -> r_old (run_steps pb env k s0) = X)).
  { induction k as [|k IH]; intros Hk; [split; [exact HX|lia]|]. destruct (IH ltac:(lia)) as [A B]. split; [apply (St k ltac:(lia) A B)|]. intros _. exact A. }
  intros k Hk. destruct (All k Hk) as [A B]. split; [exact A|]. intros L. apply (St k L A B).
Qed.
Print Assumptions C114_steady_flow.

(** ** Flows with affine stress *)
Section Affine.
Context {point : Type}.
Variable pb : problem point.
Variable position : site -> nat -> R.
(** the divergence theorem for the velocity shape functions that vanish on the boundary, integrated against 1 and the coordinates *)
Definition divergence_theorem : Prop :=
  forall i, (i < pb_nu pb)%nat -> dirichlet_dof pb i = false -> forall d e, (d < pb_dim pb)%nat -> (e < pb_dim pb)%nat ->
    suml (pb_sites pb) (fun s => st_JxW s * st_dphi s i d e) = 0 /\
    forall k, (k < pb_dim pb)%nat ->
      suml (pb_sites pb) (fun s => st_JxW s * (position s k * st_dphi s i d e)) = if Nat.eqb k e then - suml (pb_sites pb) (fun s => st_JxW s * st_phi s i d) else 0.
(** Cauchy stress at a quadrature point *)
Definition stress (X : field) (s : site) (d e : nat) : R := 2 * st_mu s * sym (gradient_at pb (fst X) s) d e - if Nat.eqb d e then pressure_at pb (snd X) s else 0.
(** the stationary Navier-Stokes equations rho (u . grad) u - damping u = div stress + f, div u = 0 at the quadrature points, for the stress
    A + B x; its divergence is the sum of the B d e e over e *)
Definition stationary_solution (f : site -> nat -> R) (A : nat -> nat -> R) (B : nat -> nat -> nat -> R) (X : field) : Prop :=
  forall s, In s (pb_sites pb) ->
    divergence_at pb (fst X) s = 0 /\
    forall d, (d < pb_dim pb)%nat ->
      (forall e, (e < pb_dim pb)%nat -> stress X s d e = A d e + sumn (pb_dim pb) (fun k => B d e k * position s k)) /\
      st_rho s * sumn (pb_dim pb) (fun e => velocity_at pb (fst X) s e * gradient_at pb (fst X) s d e) - st_damping s * velocity_at pb (fst X) s d
        = sumn (pb_dim pb) (fun e => B d e e) + f s d.
(** the vector of the body force f (user_rhs): zero at prescribed unknowns, no source in the continuity equation *)
Definition body_force (f : site -> nat -> R) (force : field) : Prop :=
  (forall i, (i < pb_nu pb)%nat -> fst force i = if dirichlet_dof pb i then 0 else suml (pb_sites pb) (fun s => st_JxW s * sumn (pb_dim pb) (fun d => f s d * st_phi s i d))) /\
  (forall i, snd force i = 0).

Lemma sym_contract (n : nat) (g t : nat -> nat -> R) : sumn n (fun d => sumn n (fun e => sym g d e * sym t d e)) = sumn n (fun d => sumn n (fun e => sym g d e * t d e)).
Proof.
  transitivity (/ 2 * (sumn n (fun d => sumn n (fun e => sym g d e * t d e)) + sumn n (fun d => sumn n (fun e => sym g d e * t e d)))).
  - rewrite <- sumn_plus, <- sumn_scal. apply sumn_ext. intros d _. rewrite <- sumn_plus, <- sumn_scal. apply sumn_ext. intros e _. unfold sym. field.
  - rewrite (sumn_swap n n (fun d e => sym g d e * t e d)).
    assert (E : sumn n (fun j => sumn n (fun i => sym g i j * t j i)) = sumn n (fun d => sumn n (fun e => sym g d e * t d e))).
    { apply sumn_ext. intros d _. apply sumn_ext. intros e _. unfold sym. field. }
    rewrite E. field.
Qed.

Theorem C114_affine_stress : forall f A B (force X : field),
  divergence_theorem -> pb_ofaces pb = [] -> body_force f force -> stationary_solution f A B X -> equilibrium pb force X.
Proof.
  intros f A B force X G O [F1 F2] St. split.
  - intros i Hi. specialize (F1 i Hi). destruct (dirichlet_dof pb i) eqn:D; [exact F1|]. intros time. unfold momentum_defect. rewrite F1.
    assert (L : external_load pb time i = 0) by (unfold external_load; rewrite O; reflexivity). rewrite L. clear L F1.
    unfold stationary_solution, divergence_theorem in *. set (dim := pb_dim pb) in *.
    assert (Gi := G i Hi D). clear G.
    match goal with |- _ - 0 - suml ?l ?h = 0 => transitivity (suml l (fun s => st_JxW s * sumn dim (fun d => f s d * st_phi s i d)) -
       (suml l (fun s => st_JxW s * sumn dim (fun d => (sumn dim (fun e => B d e e) + f s d) * st_phi s i d))
        + suml l (fun s => sumn dim (fun d => sumn dim (fun e => (A d e + sumn dim (fun k => B d e k * position s k)) * (st_JxW s * st_dphi s i d e)))))) end.
    + unfold Rminus at 2. rewrite Ropp_0, Rplus_0_r. f_equal. rewrite <- suml_plus. apply suml_ext. intros s Hs. destruct (St s Hs) as [Div Eq].
      rewrite sym_contract, Div.
      rewrite (sumn_ext dim (fun d => (st_rho s * _ - _) * _) (fun d => (sumn dim (fun e => B d e e) + f s d) * st_phi s i d)).
      2: { intros d Hd. destruct (Eq d Hd) as [_ E2]. rewrite <- E2. unfold transport. rewrite Div. fold dim. ring. }
      rewrite Rmult_plus_distr_l, Rmult_plus_distr_l, Rplus_assoc. f_equal. unfold test_divergence. fold dim.
      rewrite (sumn_ext dim (fun d => sumn dim (fun e => (A d e + _) * _)) (fun d => sumn dim (fun e => st_JxW s * (2 * st_mu s * (sym (gradient_at pb (fst X) s) d e * st_dphi s i d e)) ) - st_JxW s * pressure_at pb (snd X) s * st_dphi s i d d)).
      * rewrite sumn_minus. rewrite (sumn_scal dim (st_JxW s * pressure_at pb (snd X) s)).
        rewrite (sumn_ext dim (fun d => sumn dim (fun e => st_JxW s * _)) (fun d => st_JxW s * (2 * st_mu s * sumn dim (fun e => sym (gradient_at pb (fst X) s) d e * st_dphi s i d e)))).
        2: { intros d _. rewrite <- !sumn_scal. reflexivity. }
        rewrite (sumn_scal dim (st_JxW s)), (sumn_scal dim (2 * st_mu s)). ring.
      * intros d Hd. destruct (Eq d Hd) as [E1 _].
        rewrite (sumn_ext dim (fun e => (A d e + _) * _) (fun e => st_JxW s * (2 * st_mu s * (sym (gradient_at pb (fst X) s) d e * st_dphi s i d e)) - (if Nat.eqb d e then pressure_at pb (snd X) s else 0) * (st_JxW s * st_dphi s i d e))).
        2: { intros e He. rewrite <- (E1 e He). unfold stress. ring. }
        rewrite sumn_minus. f_equal. rewrite (sumn_delta dim d); [rewrite Nat.eqb_refl; ring|exact Hd|].
        intros e _ Hne. destruct (Nat.eqb_spec d e) as [->|_]; [congruence|ring].
    + assert (Z : suml (pb_sites pb) (fun s => sumn dim (fun d => sumn dim (fun e => (A d e + sumn dim (fun k => B d e k * position s k)) * (st_JxW s * st_dphi s i d e))))
                  = - suml (pb_sites pb) (fun s => st_JxW s * sumn dim (fun d => sumn dim (fun e => B d e e) * st_phi s i d))).
      { rewrite suml_sumn. transitivity (sumn dim (fun d => - (sumn dim (fun e => B d e e) * suml (pb_sites pb) (fun s => st_JxW s * st_phi s i d)))).
        - apply sumn_ext. intros d Hd. rewrite suml_sumn, <- sumn_scal_r, <- sumn_opp. apply sumn_ext. intros e He.
          destruct (Gi d e Hd He) as [G1 G2].
          transitivity (A d e * suml (pb_sites pb) (fun s => st_JxW s * st_dphi s i d e) + suml (pb_sites pb) (fun s => sumn dim (fun k => B d e k * (st_JxW s * (position s k * st_dphi s i d e))))).
          + rewrite <- suml_scal, <- suml_plus. apply suml_ext. intros s _. rewrite Rmult_plus_distr_r. f_equal. rewrite <- sumn_scal_r. apply sumn_ext. intros k _. ring.
          + rewrite G1, suml_sumn, (sumn_delta dim e); [|exact He|].
            * rewrite suml_scal, (G2 e He), Nat.eqb_refl. ring.
            * intros k Hk Hne. rewrite suml_scal, (G2 k Hk). destruct (Nat.eqb_spec k e) as [?|_]; [contradiction|ring].
        - rewrite sumn_opp. f_equal. symmetry.
          rewrite (suml_ext (pb_sites pb) _ (fun s => sumn dim (fun d => sumn dim (fun e => B d e e) * (st_JxW s * st_phi s i d)))).
          + rewrite suml_sumn. apply sumn_ext. intros d _. apply suml_scal.
          + intros s _. rewrite <- sumn_scal. apply sumn_ext. intros d _. ring. }
      rewrite Z. clear Z.
      rewrite (suml_ext (pb_sites pb) (fun s => st_JxW s * sumn dim (fun d => (sumn dim (fun e => B d e e) + f s d) * st_phi s i d))
        (fun s => st_JxW s * sumn dim (fun d => sumn dim (fun e => B d e e) * st_phi s i d) + st_JxW s * sumn dim (fun d => f s d * st_phi s i d))).
      * rewrite suml_plus. ring.
      * intros s _. rewrite <- Rmult_plus_distr_l, <- sumn_plus. f_equal. apply sumn_ext. intros d _. ring.
  - intros i Hi.
    assert (Z : continuity_defect pb (snd force) X = fun _ => 0).
    { apply functional_extensionality. intros j. unfold continuity_defect. rewrite F2. destruct (pb_con_p pb j); [ring|].
      rewrite suml_zero; [ring|]. intros s Hs. destruct (St s Hs) as [-> _]. ring. }
    rewrite Z. unfold without_means, without_mean.
    assert (S0 : forall m, sumn (pb_np pb) (fun j => mode_weights m j * 0) = 0) by (intros m; apply sumn_zero; intros; ring).
    destruct (pb_m0 pb) as [m0|], (pb_m1 pb) as [m1|]; rewrite ?S0.
    + rewrite (sumn_zero (pb_np pb) (fun j => mode_weights m1 j * _)); [ring|]. intros; ring.
    + ring.
    + ring.
    + ring.
Qed.

(** plane Couette and Poiseuille flow: velocity (a + b y + c y^2, 0, ..., 0), pressure P + 2 mu c x *)
Theorem C114_plane_channel : forall a b c P mu (X : field),
  divergence_theorem -> pb_ofaces pb = [] -> (2 <= pb_dim pb)%nat ->
  (forall s, In s (pb_sites pb) ->
     st_mu s = mu /\ st_damping s = 0 /\
     pressure_at pb (snd X) s = P + 2 * mu * c * position s 0%nat /\
     (forall d, (d < pb_dim pb)%nat -> velocity_at pb (fst X) s d = if Nat.eqb d 0 then a + b * position s 1%nat + c * position s 1%nat ^ 2 else 0) /\
     (forall d e, (d < pb_dim pb)%nat -> (e < pb_dim pb)%nat -> gradient_at pb (fst X) s d e = if Nat.eqb d 0 && Nat.eqb e 1 then b + 2 * c * position s 1%nat else 0)) ->
  equilibrium pb field_zero X.
Proof.
  intros a b c P mu X G O D H.
  apply (C114_affine_stress (fun _ _ => 0)
    (fun d e => if Nat.eqb d e then - P else if (Nat.eqb d 0 && Nat.eqb e 1) || (Nat.eqb d 1 && Nat.eqb e 0) then mu * b else 0)
    (fun d e k => if Nat.eqb d e then (if Nat.eqb k 0 then - (2 * mu * c) else 0) else if (Nat.eqb d 0 && Nat.eqb e 1) || (Nat.eqb d 1 && Nat.eqb e 0) then (if Nat.eqb k 1 then 2 * mu * c else 0) else 0)); [exact G|exact O| |].
  - split; [|reflexivity]. intros i _. cbn. destruct (dirichlet_dof pb i); [reflexivity|]. rewrite suml_zero; [reflexivity|]. intros s _.
    rewrite (sumn_zero (pb_dim pb)); [ring|]. intros; ring.
  - intros s Hs. destruct (H s Hs) as (Hmu & Hda & Hp & Hv & Hg). set (dim := pb_dim pb) in *.
    assert (Sum2 : forall g : nat -> R, (forall k, (2 <= k < dim)%nat -> g k = 0) -> sumn dim g = g 0%nat + g 1%nat).
    { intros g Hz. clear - D Hz. induction dim as [|n IH]; [lia|]. destruct (Nat.eq_dec n 1) as [->|Hn]; [cbn; ring|]. cbn [sumn]. rewrite IH by (try lia; intros; apply Hz; lia). rewrite (Hz n) by lia. ring. }
    split.
    + unfold divergence_at. apply sumn_zero. intros d Hd. rewrite Hg by assumption. destruct d as [|d]; reflexivity.
    + intros d Hd. split.
      * intros e He. rewrite Sum2.
        2: { intros k [Hk _]. destruct k as [|[|k]]; try lia. cbn [Nat.eqb]. destruct (Nat.eqb d e), ((Nat.eqb d 0 && Nat.eqb e 1) || (Nat.eqb d 1 && Nat.eqb e 0)); ring. }
        unfold stress, sym. rewrite !Hg by assumption. rewrite Hmu, Hp. cbn [Nat.eqb].
        destruct d as [|[|d]], e as [|[|e]]; cbn [Nat.eqb andb orb]; try (field; fail).
        destruct (Nat.eqb d e); field.
      * rewrite Hda. rewrite (sumn_zero dim (fun e => velocity_at _ _ _ e * _)).
        2: { intros e He. rewrite Hv, Hg by assumption. destruct e as [|e]; cbn [Nat.eqb]; [rewrite andb_false_r|]; ring. }
        rewrite Sum2.
        2: { intros k [Hk _]. destruct k as [|[|k]]; try lia. cbn [Nat.eqb]. rewrite !andb_false_r. cbn [orb]. destruct (Nat.eqb d _); reflexivity. }
        destruct d as [|[|d]]; cbn [Nat.eqb andb orb]; ring.
Qed.

(** a fluid at rest in a constant gravity field; the pressure grows with the depth.  Density and viscosity may not vary in this statement; the
    discrete force is the integral of rho g times the shape functions *)
Theorem C114_hydrostatic : forall (g : nat -> R) rho P (force X : field),
  divergence_theorem -> pb_ofaces pb = [] -> body_force (fun _ d => rho * g d) force -> (forall i, fst X i = 0) ->
  (forall s, In s (pb_sites pb) -> pressure_at pb (snd X) s = P + rho * sumn (pb_dim pb) (fun k => g k * position s k)) ->
  equilibrium pb force X.
Proof.
  intros g rho P force X G O F Hu Hp.
  apply (C114_affine_stress (fun _ d => rho * g d) (fun d e => if Nat.eqb d e then - P else 0) (fun d e k => if Nat.eqb d e then - (rho * g k) else 0)); try assumption.
  assert (V : forall s d, velocity_at pb (fst X) s d = 0) by (intros; apply sumn_zero; intros; rewrite Hu; ring).
  assert (Gr : forall s d e, gradient_at pb (fst X) s d e = 0) by (intros; apply sumn_zero; intros; rewrite Hu; ring).
  intros s Hs. split; [apply sumn_zero; intros; apply Gr|]. intros d Hd. split.
  - intros e He. unfold stress, sym. rewrite !Gr, (Hp s Hs). destruct (Nat.eqb d e).
    + rewrite (sumn_ext _ (fun k => - (rho * g k) * position s k) (fun k => - rho * (g k * position s k))) by (intros; ring). rewrite sumn_scal. field.
    + rewrite (sumn_zero _ (fun k => 0 * position s k)) by (intros; ring). field.
  - rewrite V. rewrite (sumn_zero _ (fun e => velocity_at _ _ _ e * _)) by (intros; rewrite V; ring).
    rewrite (sumn_delta _ d); [rewrite Nat.eqb_refl; ring|exact Hd|]. intros e _ Hne. destruct (Nat.eqb_spec d e) as [->|_]; [congruence|reflexivity].
Qed.
End Affine.
Print Assumptions C114_affine_stress.
Print Assumptions C114_plane_channel.
Print Assumptions C114_hydrostatic.

(** ** Steps of constant size: the weights are exact, hence the hypothesis about the leading weight in C114_steady_flow holds *)
Lemma exact_weights (p : ts_params RNum) n : well_posed p -> (tp_scheme p = bdf_2 \/ tp_scheme p = implicit_euler) ->
  (forall k, (k < n)%nat -> at_end (next_n k (ts_init p)) = false) ->
  (forall k, (k < n)%nat -> now (next_n (S k) (ts_init p)) - now (next_n k (ts_init p)) = tp_step_start p) ->
  forall k, (1 <= k <= n)%nat -> weight (next_n k (ts_init p)) = lead (tp_scheme p) k (fun j => now (next_n j (ts_init p))).
Proof.
  intros W Hs He Hh.
  assert (Ph : 0 < tp_step_start p) by (destruct W as (? & ? & ? & ?); rnum; lra).
  assert (Lead : forall k, (1 <= k <= n)%nat -> lead (tp_scheme p) k (fun j => now (next_n j (ts_init p))) = if three_levels (tp_scheme p) k then 3 / 2 * (1 / tp_step_start p) else 1 / tp_step_start p).
  { intros k Hk. unfold lead. destruct k as [|k]; [lia|]. replace (S k - 1)%nat with k by lia.
    assert (E1 := Hh k ltac:(lia)). rewrite E1. destruct (three_levels (tp_scheme p) (S k)) eqn:T; [|ring].
    unfold three_levels in T. apply andb_true_iff in T as [_ T]. apply Nat.leb_le in T. destruct k as [|k]; [lia|]. replace (S (S k) - 2)%nat with k by lia.
    assert (E2 := Hh k ltac:(lia)).
    assert (E3 : now (next_n (S (S k)) (ts_init p)) - now (next_n k (ts_init p)) = 2 * tp_step_start p) by (rnum; lra).
    rewrite E3. field. lra. }
  assert (Wt : forall k, (k <= n)%nat -> weight_val (next_n k (ts_init p)) = if three_levels (tp_scheme p) k then 3 / 2 * (1 / tp_step_start p) else 1 / tp_step_start p).
  { induction k as [|k IH]; intros Hk.
    - unfold three_levels. rewrite andb_false_r. cbn. rnum. unfold Q2R. cbn. field. lra.
    - specialize (IH ltac:(lia)). rewrite next_n_S. cbn [next weight_val].
      assert (G := good_nexts p k W (fun j Hj => He j ltac:(lia))).
      assert (St : next_step (next_n k (ts_init p)) = tp_step_start p).
      { assert (D := next_step_diff (next_n k (ts_init p))). assert (E := Hh k ltac:(lia)). rewrite next_n_S in E. unfold step_size in D. cbn [next current_step_val] in D. rnum. lra. }
      assert (La : (1 <= k)%nat -> current_step_val (next_n k (ts_init p)) = tp_step_start p).
      { intros L. destruct k as [|j]; [lia|]. assert (D := next_step_diff (next_n j (ts_init p))). assert (E := Hh j ltac:(lia)). rewrite next_n_S in E |- *. unfold step_size in D. rnum. lra. }
      assert (NS : not_at_start (next_n k (ts_init p)) = (1 <=? k)%nat).
      { unfold not_at_start. rewrite (g_start _ _ _ G). destruct (Nat.leb_spec 1 k) as [L|L].
        - apply negb_true_iff. rnum. apply Reqb_false. assert (Q := g_pos _ _ _ G ltac:(lia)). lra.
        - apply negb_false_iff. rnum. apply Reqb_true. apply (g_zero _ _ _ G). lia. }
      assert (New : next_new_weight (next_n k (ts_init p)) = if three_levels (tp_scheme p) (S k) then 3 / 2 * (1 / tp_step_start p) else 1 / tp_step_start p).
      { unfold next_new_weight, next_uses_bdf. rewrite St, NS, (g_scheme _ _ _ G). unfold three_levels. change (2 <=? S k)%nat with (1 <=? k)%nat.
        destruct (scheme_eqb (tp_scheme p) bdf_2 && (1 <=? k)%nat) eqn:T.
        - apply andb_true_iff in T as [_ T]. unfold next_last. rewrite NS, T. apply Nat.leb_le in T. rewrite (La T). rnum. unfold Q2R. cbn. field. lra.
        - rnum. unfold Q2R. cbn. field. lra. }
      destruct (next_weight_changes (next_n k (ts_init p))) eqn:C; [exact New|].
      rewrite IH. unfold next_weight_changes, ngtb in C. rewrite New, IH in C. rnum. apply Rltb_false in C. clear St La NS New IH Lead G.
      assert (Pi : 0 < 1 / tp_step_start p) by (apply Rdiv_lt_0_compat; lra). revert Pi C.
      generalize (1 / tp_step_start p). intros w Pw. unfold three_levels.
      destruct (scheme_eqb (tp_scheme p) bdf_2); cbn [andb]; [|reflexivity].
      destruct k as [|[|k]]; cbn [Nat.leb]; try reflexivity. intros C. exfalso. unfold Q2R in C. cbn in C.
      replace (Rabs (3 / 2 * w - w) / (3 / 2 * w)) with (1 / 3) in C; [lra|]. rewrite Rabs_right by lra. field. lra. }
  intros k Hk. rewrite (Lead k Hk). apply Wt. lia.
Qed.

(** the run with constant steps *)
Theorem C114_constant_steps : forall {point : Type} (pb : problem point) (env : nat -> environment) (s0 : state) (p : ts_params RNum) (X force : field) (n : nat),
  r_clock s0 = ts_init p -> well_posed p -> (tp_scheme p = bdf_2 \/ tp_scheme p = implicit_euler) ->
  fp_physical_type (pb_fp pb) = incompressible -> fp_linearization (pb_fp pb) <> projection ->
  (0 < fp_max_nl_iteration (pb_fp pb) < 4294967296)%Z -> 0 < fp_tol_nl_iteration (pb_fp pb) -> (Z.of_nat n <= 4294967296)%Z ->
  (forall k, (k < n)%nat -> at_end (r_clock (run_steps pb env k s0)) = false /\
     now (r_clock (run_steps pb env (S k) s0)) - now (r_clock (run_steps pb env k s0)) = tp_step_start p) ->
  fits_the_boundary pb X -> equilibrium pb force X ->
  (forall k, (k < n)%nat -> e_user (env k) = force /\ pressure_is_fixed pb (env k) X /\ keep_zero pb (env k) (run_steps pb env k s0)) ->
  r_sol s0 = X -> r_sol (run_steps pb env n s0) = X.
Proof.
  intros point pb env s0 p X force n H0 W Hs Hty Hlin Hm Ht Hn Hend Hfit Heq He HX.
  assert (Ec : forall k, r_clock (run_steps pb env k s0) = next_n k (ts_init p)) by (intros k; rewrite clock_run, H0; reflexivity).
  refine (proj1 (C114_steady_flow pb env s0 p X force n H0 W Hs Hty Hlin Hm Ht Hn (fun k Hk => proj1 (Hend k Hk)) _ Hfit Heq He HX n (le_n n))).
  intros k Hk. rewrite Ec.
  replace (fun j => now (r_clock (run_steps pb env j s0))) with (fun j => now (next_n j (ts_init p))) by (apply functional_extensionality; intros i; rewrite Ec; reflexivity).
  apply (exact_weights p n W Hs); [| |exact Hk]; intros i Hi; destruct (Hend i Hi) as [A B].
  - rewrite <- Ec. exact A.
  - rewrite <- !Ec. exact B.
Qed.
Print Assumptions C114_constant_steps.

(** ** Example: shear flow (y, 0) in the square (-1, 1)^2, four bilinear cells with one quadrature point each; the velocity unknowns of the
    middle node are free (0 and 1), those on the boundary are tied to one prescribed unknown (2) with shape function (y, 0); constant pressure.
    Five steps of BDF-2 *)
Definition sf_site (x y : R) : site :=
  MkSite 1 (fun j d => match j, d with O, O => 1 / 4 | S O, S O => 1 / 4 | S (S O), O => y | _, _ => 0 end)
    (fun j d e => match j, d, e with
       | O, O, O => - x | S O, S O, O => - x | O, O, S O => - y | S O, S O, S O => - y | S (S O), O, S O => 1 | _, _, _ => 0 end)
    (fun _ => 1) 3 2 0.
Definition sf_pb (l : linearization) : problem unit :=
  MkProblem (ex_fp l) 2 3 1 [sf_site (1/2) (1/2); sf_site (-1/2) (1/2); sf_site (1/2) (-1/2); sf_site (-1/2) (-1/2)]
    (MkConditions (fun id => if Nat.eqb id 5 then Some (fun _ _ _ => 7) else None) (fun _ => false))
    [MkBFace 5%nat [(2%nat, tt, 0%nat)]] (fun _ => None) [] (fun _ => false) None None false.
Definition sf_position (s : site) (k : nat) : R := - st_dphi s 0%nat 0%nat k.
Definition sf_X : field := (fun i => if Nat.eqb i 2 then 7 else 0, fun _ => 11).
Definition sf_krylov : Z -> R -> field -> nat -> krylov (N:=RNum) field := fun _ _ x _ => MkKrylov (N:=RNum) field 0%Z 0 x true.
Definition sf_env (k : nat) : environment := MkEnv sf_krylov sf_krylov (fun _ => MkKrylov (N:=RNum) field 0%Z 0 field_zero false) (fun _ => 0) field_zero.
Definition sf_p : ts_params RNum := MkTP (N:=RNum) bdf_2 0 10 1 1 1.
Definition sf_s0 : state := MkState (ts_init sf_p) sf_X field_zero field_zero (MkPrec 0 0 true 0).
Lemma sf_clock k : (k <= 5)%nat -> let c := next_n k (ts_init sf_p) in
  at_end c = false /\ now_val c = INR k /\ current_step_val c = 1 /\ step_val c = 1 /\ max_step_val c = 1 /\ final_val c = 10.
Proof.
  induction k as [|k IH]; intros Hk c.
  - unfold c. cbn. rnum. unfold Q2R. cbn. repeat split; auto; lra.
  - destruct (IH ltac:(lia)) as (A & B & C & D & E & F). clear IH. unfold c. clear c. rewrite next_n_S. set (c := next_n k (ts_init sf_p)) in *. clearbody c.
    assert (I5 : INR k <= 4) by (replace 4 with (INR 4) by (cbn; lra); apply le_INR; lia).
    assert (S1 : next_s c = 1).
    { unfold next_s, ngtb. rewrite C, D, E. assert (Z : (if (scheme_eqb (scheme_val c) bdf_2 && (step_no_val c =? 1)%Z)%bool then 1 else 1) = 1) by (destruct (_ && _)%bool; reflexivity).
      destruct (not_at_start c); [|reflexivity]. rnum. rewrite Z. destruct (Rltb_spec 1 1) as [?|_]; [lra|reflexivity]. }
    assert (H : next_hits_end c = false).
    { unfold next_hits_end, ngtb. rewrite S1, F, B. apply andb_false_iff. right. rnum. apply Rltb_false. unfold Q2R. cbn. lra. }
    unfold at_end in *. cbn [next at_end_val now_val current_step_val step_val max_step_val final_val]. unfold next_time, next_step. rewrite H, A, S1, B, S_INR. rnum.
    refine (conj eq_refl (conj eq_refl (conj eq_refl (conj D (conj E F))))).
Qed.
Lemma sf_gauss l : divergence_theorem (sf_pb l) sf_position.
Proof.
  intros i Hi D d e Hd He. change (pb_dim (sf_pb l)) with 2%nat in *. change (pb_nu (sf_pb l)) with 3%nat in Hi.
  assert (i <> 2%nat) by (intros ->; discriminate D).
  change (pb_sites (sf_pb l)) with [sf_site (1/2) (1/2); sf_site (-1/2) (1/2); sf_site (1/2) (-1/2); sf_site (-1/2) (-1/2)].
  destruct i as [|[|i]]; [| |lia]; destruct d as [|[|d]]; try lia; destruct e as [|[|e]]; try lia; (split; [cbn; lra|]); intros k Hk; destruct k as [|[|k]]; try lia; unfold sf_position; cbn; lra.
Qed.
Lemma sf_equilibrium l : equilibrium (sf_pb l) field_zero sf_X.
Proof.
  apply (C114_plane_channel (sf_pb l) sf_position 0 7 0 11 2); [apply sf_gauss|reflexivity|cbn; lia|].
  change (pb_sites (sf_pb l)) with [sf_site (1/2) (1/2); sf_site (-1/2) (1/2); sf_site (1/2) (-1/2); sf_site (-1/2) (-1/2)].
  intros s Hs. change (pb_dim (sf_pb l)) with 2%nat.
  assert (P : exists x y, s = sf_site x y) by (destruct Hs as [<-|[<-|[<-|[<-|[]]]]]; eauto). destruct P as (x & y & ->). clear Hs.
  split; [reflexivity|]. split; [reflexivity|]. split; [unfold sf_position; cbn; ring|]. split.
  - intros d Hd. destruct d as [|[|d]]; [| |lia]; unfold velocity_at; unfold sf_position; cbn; ring.
  - intros d e Hd He. destruct d as [|[|d]]; [| |lia]; destruct e as [|[|e]]; try lia; unfold gradient_at; unfold sf_position; cbn; ring.
Qed.
Example C114_nonvacuous : forall k, (k <= 5)%nat ->
  r_sol (run_steps (sf_pb coupled_implicit_newton) sf_env k sf_s0) = sf_X /\ r_sol (run_steps (sf_pb coupled_velocity_explicit) sf_env k sf_s0) = sf_X.
Proof.
  assert (W : well_posed sf_p) by (unfold well_posed; cbn; rnum; lra).
  assert (A : forall l, l <> projection -> forall k, (k <= 5)%nat -> r_sol (run_steps (sf_pb l) sf_env k sf_s0) = sf_X).
  { intros l Hl k Hk.
    assert (Ec : forall k, r_clock (run_steps (sf_pb l) sf_env k sf_s0) = next_n k (ts_init sf_p)) by (intros j; rewrite clock_run; reflexivity).
    refine (proj1 (C114_steady_flow (sf_pb l) sf_env sf_s0 sf_p sf_X field_zero 5 eq_refl W (or_introl eq_refl) eq_refl Hl _ _ _ _ _ _ (sf_equilibrium l) _ eq_refl k Hk)).
    - cbn. lia.
    - cbn. rnum. lra.
    - lia.
    - intros j Hj. rewrite Ec. apply sf_clock. lia.
    - intros j Hj. rewrite Ec.
      replace (fun j => now (r_clock (run_steps (sf_pb l) sf_env j sf_s0))) with (fun j => now (next_n j (ts_init sf_p))) by (apply functional_extensionality; intros i; rewrite Ec; reflexivity).
      apply (exact_weights sf_p 5 W (or_introl eq_refl)); [|intros i Hi|exact Hj].
      + intros i Hi. apply sf_clock. lia.
      + unfold now. destruct (sf_clock i ltac:(lia)) as (_ & -> & _), (sf_clock (S i) ltac:(lia)) as (_ & -> & _). rewrite S_INR. cbn. ring.
    - intros time f i v [<-|[]] (g & x & c & E & [Hin|[]] & ->). inversion Hin; subst. cbn in E. inversion E; subst. reflexivity.
    - intros j Hj. split; [reflexivity|]. split; [intros F; discriminate F|]. intros _ b tol call. split; reflexivity. }
  intros k Hk. split; apply A; try assumption; discriminate.
Qed.
