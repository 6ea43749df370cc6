(** * C110: kinetic energy of an enclosed flow on meshes with hanging nodes and periodic boundaries *)
From Coq Require Import Reals List Bool Arith ZArith Lra Lia.
From Verif Require Import Num SumR Model_Parameters Model_TimeStepping Spec_TimeStepping Proofs_TimeStepping Proofs_TimeStepping2.
From Verif Require Import Model_NonlinearSolver Properties_NonlinearSolver Model_NSOperator Properties_NSOperator.
From Verif Require Import Model_BoundaryValues Properties_BoundaryValues Model_Run Properties_Run Properties_Energy Model_HangingRun Properties_HangingRun.
Import ListNotations.
Open Scope R_scope.

(** ** Specification (energy_of, kinetic_energy, dissipation, ahead, bend: Properties_Energy.v) *)
Section Spec.
Context {point : Type}.
Variable h : hproblem point.
Notation pb := (h_pb h).
(** continuous across hanging nodes, periodic, tangential to symmetry planes, zero on the walls *)
Definition conforming (u : vec) : Prop := fulfils (lines_u h) u.
(** the pressure without its level: the part that is orthogonal to the mode that is removed from the equations (its entries at constrained
    unknowns are zero, navier_stokes_matrix.cc:157-163) *)
Definition level_free (P : vec) : vec :=
  match pb_m0 pb with
  | Some m => fun i => P i - sumn (pb_np pb) (fun j => P j * mode_vector m j) / sumn (pb_np pb) (fun j => mode_vector m j ^ 2) * distribute (h_p h) (mode_vector m) i
  | None => P
  end.
Definition size_h (x : field) : R := magnitude h (fst x) (level_free (snd x)).
(** a container as in Properties_Energy.v, with the identities of the integration for conforming velocities *)
Record container_h (r : R) : Prop := {
  ch_density : 0 <= r /\ forall s, In s (pb_sites pb) -> st_rho s = r;
  ch_signs : 0 <= fp_tau_grad_div (pb_fp pb) /\ forall s, In s (pb_sites pb) -> 0 <= st_JxW s /\ 0 <= st_mu s /\ st_damping s <= 0;
  ch_walls : forall time i, h_u h i = None -> on_dirichlet (pb_conditions pb) (pb_faces pb) i = true -> prescribed (pb_conditions pb) time (pb_faces pb) i 0;
  ch_closed : forall f, In f (pb_ofaces pb) -> pb_open pb (of_id f) = None;
  ch_divergence : forall a u, conforming a -> conforming u ->
    suml (pb_sites pb) (fun s => st_JxW s *
      (sumn (pb_dim pb) (fun e => velocity_at pb a s e * (2 * sumn (pb_dim pb) (fun d => velocity_at pb u s d * gradient_at pb u s d e)))
       + divergence_at pb a s * speed2 pb (velocity_at pb u s))) = 0;
  ch_level : forall m u, pb_m0 pb = Some m -> conforming u ->
    suml (pb_sites pb) (fun s => st_JxW s * (pressure_at pb (distribute (h_p h) (mode_vector m)) s * divergence_at pb u s)) = 0;
  ch_mode : forall m, pb_m0 pb = Some m -> sumn (pb_np pb) (fun i => mode_vector m i ^ 2) <> 0 /\ forall i, is_free (h_p h) i = false -> mode_vector m i = 0;
  ch_standard : pb_m1 pb = None }.
End Spec.

Section Work.
Context {point : Type}.
Variable h : hproblem point.
Variable r : R.
Hypothesis CT : container_h h r.
Notation pb := (h_pb h).
(** the convective term in skew-symmetric form does no work *)
Lemma convection_is_idle_h (a u : vec) : fp_beta (pb_fp pb) = / 2 -> conforming h a -> conforming h u ->
  suml (pb_sites pb) (fun s => st_JxW s * (st_rho s * sumn (pb_dim pb) (fun d => transport pb a u s d * velocity_at pb u s d))) = 0.
Proof.
  intros B Ha Hu. destruct (ch_density _ _ CT) as [_ D].
  rewrite (suml_ext _ _ (fun s => r / 2 * (st_JxW s *
      (sumn (pb_dim pb) (fun e => velocity_at pb a s e * (2 * sumn (pb_dim pb) (fun d => velocity_at pb u s d * gradient_at pb u s d e)))
       + divergence_at pb a s * speed2 pb (velocity_at pb u s))))).
  - rewrite suml_scal, (ch_divergence _ _ CT a u Ha Hu). ring.
  - intros s Hs. rewrite (D s Hs).
    assert (E : sumn (pb_dim pb) (fun d => transport pb a u s d * velocity_at pb u s d) =
      / 2 * (sumn (pb_dim pb) (fun e => velocity_at pb a s e * (2 * sumn (pb_dim pb) (fun d => velocity_at pb u s d * gradient_at pb u s d e)))
       + divergence_at pb a s * speed2 pb (velocity_at pb u s))).
    { unfold transport, speed2. rewrite B.
      rewrite (sumn_ext _ _ (fun d => sumn (pb_dim pb) (fun e => velocity_at pb a s e * (velocity_at pb u s d * gradient_at pb u s d e)) + / 2 * (divergence_at pb a s * velocity_at pb u s d ^ 2))).
      2: { intros d _. rewrite Rmult_plus_distr_r, <- sumn_scal_r. f_equal; [apply sumn_ext; intros; ring|ring]. }
      rewrite sumn_plus, sumn_swap, !sumn_scal.
      rewrite (sumn_ext _ (fun e => velocity_at pb a s e * (2 * _)) (fun e => 2 * (velocity_at pb a s e * sumn (pb_dim pb) (fun d => velocity_at pb u s d * gradient_at pb u s d e)))) by (intros; ring).
      rewrite sumn_scal. rewrite (sumn_ext _ (fun j => sumn (pb_dim pb) _) (fun e => velocity_at pb a s e * sumn (pb_dim pb) (fun d => velocity_at pb u s d * gradient_at pb u s d e))) by (intros; rewrite sumn_scal; reflexivity).
      field. }
    rewrite E. field.
Qed.

Lemma level_free_spec (P : vec) : closed (h_p h) -> fulfils (h_p h) P ->
  fulfils (h_p h) (level_free h P) /\ (forall m, pb_m0 pb = Some m -> sumn (pb_np pb) (fun i => mode_vector m i * level_free h P i) = 0) /\
  forall u, conforming h u -> suml (pb_sites pb) (fun s => st_JxW s * (divergence_at pb u s * pressure_at pb (level_free h P) s))
    = suml (pb_sites pb) (fun s => st_JxW s * (divergence_at pb u s * pressure_at pb P s)).
Proof.
  intros C F. unfold level_free. destruct (pb_m0 pb) as [m|] eqn:E; [|split; [exact F|split; [discriminate|reflexivity]]].
  destruct (ch_mode _ _ CT m E) as [N Z]. set (a := _ / _). split; [|split].
  - assert (K := fulfils_lin (h_p h) P (distribute (h_p h) (mode_vector m)) 1 (- a) F (distribute_fulfils _ _ C)).
    intros i l Hl. specialize (K i l Hl). cbv beta in K. replace (P i - a * distribute (h_p h) (mode_vector m) i) with (P i * 1 + distribute (h_p h) (mode_vector m) i * - a) by ring.
    rewrite K. apply suml_ext. intros; ring.
  - intros m' [= <-].
    rewrite (sumn_ext _ _ (fun i => P i * mode_vector m i - a * mode_vector m i ^ 2)).
    + rewrite sumn_minus, sumn_scal. unfold a. field. exact N.
    + intros i _. assert (T : forall q pp aa : R, q * (pp - aa * q) = pp * q - aa * q ^ 2) by (intros; ring).
      unfold distribute. destruct (h_p h i) as [l|] eqn:El; [|apply T].
      assert (Zi := Z i ltac:(unfold is_free; rewrite El; reflexivity)). assert (T2 : forall q pp aa ss : R, q = 0 -> q * (pp - aa * ss) = pp * q - aa * q ^ 2) by (intros ? ? ? ? ->; ring). apply T2. exact Zi.
  - intros u Hu.
    rewrite (suml_ext _ _ (fun s => st_JxW s * (divergence_at pb u s * pressure_at pb P s) - a * (st_JxW s * (pressure_at pb (distribute (h_p h) (mode_vector m)) s * divergence_at pb u s)))).
    + rewrite suml_minus, suml_scal, (ch_level _ _ CT m u E Hu). ring.
    + intros s _. assert (L : pressure_at pb (fun i => P i - a * distribute (h_p h) (mode_vector m) i) s = pressure_at pb P s - a * pressure_at pb (distribute (h_p h) (mode_vector m)) s).
      { unfold pressure_at. rewrite <- sumn_scal, <- sumn_minus. apply sumn_ext. intros; ring. }
      rewrite L. ring.
Qed.
(** the power of the residual in the computed fields themselves *)
Lemma own_power time (dudt : site -> nat -> R) (a : vec) (x : field) : fp_beta (pb_fp pb) = / 2 -> closed (h_p h) ->
  conforming h a -> conforming h (fst x) -> fulfils (h_p h) (snd x) ->
  virtual_power h time dudt (transport pb a (fst x)) field_zero x (fst x) (fun i => - level_free h (snd x) i) =
  - (suml (pb_sites pb) (fun s => st_JxW s * (st_rho s * sumn (pb_dim pb) (fun d => dudt s d * velocity_at pb (fst x) s d))) + dissipation pb (fst x)).
Proof.
  intros B C Ha Hu Hp. destruct (level_free_spec (snd x) C Hp) as (_ & _ & L). unfold virtual_power. cbn [field_zero fst snd].
  rewrite !sumn_zero by (intros; ring).
  assert (E : external_power h time (fst x) = 0). { unfold external_power. apply suml_zero. intros f Hf. rewrite (ch_closed _ _ CT f Hf). reflexivity. }
  rewrite E. unfold volume_defect.
  rewrite (suml_ext _ (fun s => st_JxW s * (divergence_at pb (fst x) s * pressure_at pb (fun i => - level_free h (snd x) i) s)) (fun s => (-1) * (st_JxW s * (divergence_at pb (fst x) s * pressure_at pb (level_free h (snd x)) s)))).
  2: { intros s _. assert (N : pressure_at pb (fun i => - level_free h (snd x) i) s = - pressure_at pb (level_free h (snd x)) s).
       { unfold pressure_at. transitivity (sumn (pb_np pb) (fun i => (-1) * (level_free h (snd x) i * st_psi s i))); [apply sumn_ext; intros; ring|rewrite sumn_scal; ring]. }
       rewrite N. ring. }
  rewrite suml_scal, (L _ Hu).
  assert (I : inner_power h dudt (transport pb a (fst x)) x (fst x) =
    suml (pb_sites pb) (fun s => st_JxW s * (st_rho s * sumn (pb_dim pb) (fun d => dudt s d * velocity_at pb (fst x) s d))) + dissipation pb (fst x)
    + suml (pb_sites pb) (fun s => st_JxW s * (st_rho s * sumn (pb_dim pb) (fun d => transport pb a (fst x) s d * velocity_at pb (fst x) s d)))
    - suml (pb_sites pb) (fun s => st_JxW s * (divergence_at pb (fst x) s * pressure_at pb (snd x) s))).
  { unfold inner_power, dissipation. rewrite <- !suml_plus, <- suml_minus. apply suml_ext. intros s _.
    rewrite (sumn_ext _ (fun d => (st_rho s * _ - _) * _) (fun d => st_rho s * (dudt s d * velocity_at pb (fst x) s d) + st_rho s * (transport pb a (fst x) s d * velocity_at pb (fst x) s d) - st_damping s * velocity_at pb (fst x) s d ^ 2)) by (intros; ring).
    rewrite sumn_minus, sumn_plus, !sumn_scal. unfold speed2.
    rewrite (sumn_ext _ (fun d => sumn (pb_dim pb) (fun e => sym (gradient_at pb (fst x) s) d e * _)) (fun d => sumn (pb_dim pb) (fun e => sym (gradient_at pb (fst x) s) d e ^ 2))) by (intros; apply sumn_ext; intros; ring).
    ring. }
  rewrite I, (convection_is_idle_h a (fst x) B Ha Hu). ring.
Qed.
End Work.

(** ** The equations of a step *)
Section Steps.
Context {point : Type}.
Variable h : hproblem point.
Variable r : R.
Variable env : nat -> environment.
Variable s0 : state.
Variable p : ts_params RNum.
Notation pb := (h_pb h).
Notation x := (fun k => r_sol (run_h h env k s0)).
Notation t := (fun k => now (r_clock (run_h h env k s0))).
(** successful step: the nonlinear iteration converged, or the linear solvers of the linearized formulation are honest and converge *)
Definition succeeded_h (k : nat) : Prop :=
  match fp_linearization (pb_fp pb) with
  | coupled_velocity_semi_implicit => (Z.of_nat k <= 4294967296)%Z /\ reliable_h h (env (k - 1)%nat) (run_h h env (k - 1) s0)
  | _ => report_h h env (k - 1) s0 <> (0, 0)%Z
  end.
(** container, formulation with skew-symmetric convection, constraints without chains, start that fulfils them *)
Record container_run_h : Prop := {
  cr_container : container_h h r;
  cr_start : r_clock s0 = ts_init p;
  cr_time : well_posed p;
  cr_type : fp_physical_type (pb_fp pb) = incompressible;
  cr_skew : fp_beta (pb_fp pb) = / 2;
  cr_formulation : In (fp_linearization (pb_fp pb)) [coupled_implicit_newton; coupled_implicit_picard; coupled_velocity_semi_implicit];
  cr_iterations : (0 < fp_max_nl_iteration (pb_fp pb) < 4294967296)%Z;
  cr_closed : closed (h_u h) /\ closed (h_p h) /\ in_range h;
  cr_velocity : conforming h (fst (r_sol s0));
  cr_pressures : fulfils (h_p h) (snd (r_sol s0)) /\ fulfils (h_p h) (snd (r_old s0)) }.
Hypothesis CR : container_run_h.
Let CT := cr_container CR.
Lemma equations_h k : (tp_scheme p = bdf_2 \/ tp_scheme p = implicit_euler) -> (1 <= k)%nat ->
  (forall j, (j < k)%nat -> at_end (r_clock (run_h h env j s0)) = false) ->
  t (k - 1)%nat < t k /\ conforming h (fst (x k)) /\ fulfils (h_p h) (snd (x k)) /\
  (succeeded_h k -> exists delta, Rabs delta <= / 1000000000000 /\ forall V Q, admissible h V Q ->
     Rabs (virtual_power h (t k) (derivative pb (tp_scheme p) k t x delta) (convective pb k t x) (e_user (env (k - 1)%nat)) (x k) V Q)
     <= tolerance pb * magnitude h V Q).
Proof.
  intros Hs Hk Hj. destruct (cr_closed CR) as (Cu & Cp & Rg). destruct (cr_pressures CR) as [Q1 Q2].
  assert (F : level_is_force_free h).
  { intros m V _ Hm HV. apply (ch_level _ _ CT m V Hm HV). }
  assert (Cf : (forall i v, h_u h i = None -> prescribed (pb_conditions pb) (t k) (pb_faces pb) i v -> fst (x k) i = v) -> fulfils (h_u h) (fst (x k)) -> conforming h (fst (x k))).
  { intros Hd Fu i l. unfold lines_u, constraints_u. destruct (h_u h i) as [l0|] eqn:E.
    - intros [= <-]. rewrite (Fu i l0 E).
      assert (K : forall mw, In mw l0 -> negb (is_free (h_u h) (fst mw) && on_dirichlet (pb_conditions pb) (pb_faces pb) (fst mw)) = false -> fst (x k) (fst mw) = 0).
      { intros [m w] Hin Hf. cbn [fst] in *. apply negb_false_iff, andb_true_iff in Hf as [_ D]. apply Hd; [exact (Cu i l0 m w E Hin)|].
        apply (ch_walls _ _ CT); [exact (Cu i l0 m w E Hin)|exact D]. }
      clear E. induction l0 as [|mw l0 IH]; [reflexivity|]. cbn [filter suml].
      destruct (negb _) eqn:D.
      + cbn [suml]. rewrite <- IH; [reflexivity|]. intros mw' Hin. apply K. right; exact Hin.
      + rewrite <- IH; [|intros mw' Hin; apply K; right; exact Hin]. rewrite (K mw (or_introl eq_refl) D). ring.
    - destruct (on_dirichlet (pb_conditions pb) (pb_faces pb) i) eqn:D; [|discriminate]. intros [= <-]. cbn [suml]. apply Hd; [exact E|]. apply (ch_walls _ _ CT); assumption. }
  destruct (iterated (fp_linearization (pb_fp pb))) eqn:It.
  - destruct (C127_constrained_run h env s0 p (cr_start CR) (cr_time CR) Hs (cr_type CR) It (cr_iterations CR) F Cu Cp Rg Q1 Q2) as (n & He & _ & _ & _ & _ & Hn).
    assert (Ln : (k <= n)%nat). { destruct (Nat.le_gt_cases k n) as [L|L]; [exact L|]. rewrite (Hj n L) in He. discriminate He. }
    destruct (Hn k (conj Hk Ln)) as (Inc & Hd & Fu & Fp & delta & Hdl & A & _). split; [exact Inc|]. split; [apply Cf; assumption|]. split; [exact Fp|].
    intros Hok. exists delta. split; [exact Hdl|]. unfold tolerance. unfold succeeded_h in Hok. destruct (cr_formulation CR) as [E|[E|[E|[]]]]; rewrite <- E in *; [exact (A Hok)|exact (A Hok)|discriminate It].
  - assert (Li : linearized (fp_linearization (pb_fp pb)) = true) by (destruct (cr_formulation CR) as [E|[E|[E|[]]]]; rewrite <- E in *; [discriminate It|discriminate It|reflexivity]).
    destruct (C127_constrained_linearized h env s0 p (cr_start CR) (cr_time CR) Hs (cr_type CR) Li (proj1 (cr_iterations CR)) F Cu Cp Rg Q1 Q2) as (n & He & _ & _ & _ & Hn).
    assert (Ln : (k <= n)%nat). { destruct (Nat.le_gt_cases k n) as [L|L]; [exact L|]. rewrite (Hj n L) in He. discriminate He. }
    destruct (Hn k (conj Hk Ln)) as (Inc & Hd & Fu & Fp & A). split; [exact Inc|]. split; [apply Cf; assumption|]. split; [exact Fp|].
    intros Hok. unfold tolerance. unfold succeeded_h in Hok. destruct (cr_formulation CR) as [E|[E|[E|[]]]]; rewrite <- E in *; [discriminate It|discriminate It|exact (A (proj1 Hok) (proj2 Hok))].
Qed.
(** the convecting velocity is conforming *)
Lemma convected_h k : (tp_scheme p = bdf_2 \/ tp_scheme p = implicit_euler) -> (1 <= k)%nat ->
  (forall j, (j < k)%nat -> at_end (r_clock (run_h h env j s0)) = false) ->
  exists a, conforming h a /\ convective pb k t x = transport pb a (fst (x k)).
Proof.
  intros Hs Hk Hj.
  assert (Cf : forall j, (j <= k)%nat -> conforming h (fst (x j))).
  { intros [|j] L; [exact (cr_velocity CR)|]. apply equations_h; [exact Hs|lia|]. intros i Li. apply Hj. lia. }
  unfold convective. destruct (cr_formulation CR) as [E|[E|[E|[]]]]; rewrite <- E.
  - exists (fst (x k)). split; [apply Cf; lia|reflexivity].
  - exists (fst (x k)). split; [apply Cf; lia|reflexivity].
  - exists (predicted k t x). split; [|reflexivity]. unfold predicted. destruct (3 <=? k)%nat; [|intros i l Hl; exact (Cf (k - 1)%nat ltac:(lia) i l Hl)].
    assert (L := fulfils_lin (lines_u h) _ _ (1 + (t k - t (k - 1)%nat) / (t (k - 1)%nat - t (k - 2)%nat)) (- ((t k - t (k - 1)%nat) / (t (k - 1)%nat - t (k - 2)%nat))) (Cf (k - 1)%nat ltac:(lia)) (Cf (k - 2)%nat ltac:(lia))).
    intros i l Hl. specialize (L i l Hl). cbv beta in L. set (q := (t k - t (k - 1)%nat) / (t (k - 1)%nat - t (k - 2)%nat)) in *.
    transitivity (fst (x (k - 1)%nat) i * (1 + q) + fst (x (k - 2)%nat) i * - q); [ring|]. rewrite L. apply suml_ext. intros; ring.
Qed.
End Steps.

(** ** The run *)
Section Run.
Context {point : Type}.
Variable h : hproblem point.
Variable r : R.
Variable env : nat -> environment.
Variable s0 : state.
Variable p : ts_params RNum.
Notation pb := (h_pb h).
Notation x := (fun k => r_sol (run_h h env k s0)).
Notation t := (fun k => now (r_clock (run_h h env k s0))).
Notation u k := (velocity_at pb (fst (r_sol (run_h h env k s0)))).
Notation tol := (tolerance pb).
Notation succeeded_h := (succeeded_h h env s0).
(** formulation with skew-symmetric convection, container, no body force *)
Record enclosed_run_h : Prop := {
  eh_run : container_run_h h r s0 p;
  eh_force : forall k, e_user (env k) = field_zero }.
Hypothesis EN : enclosed_run_h.
Let CT := cr_container h r s0 p (eh_run EN).
Lemma energy_nonneg_h w : 0 <= energy_of pb w.
Proof.
  destruct (ch_density _ _ CT) as [D1 D2]. destruct (ch_signs _ _ CT) as [_ S2].
  assert (0 <= suml (pb_sites pb) (fun s => st_JxW s * (st_rho s * speed2 pb (w s)))); [|unfold energy_of; lra].
  revert D2 S2. induction (pb_sites pb) as [|s l IH]; intros D2 S2; cbn [suml]; [lra|].
  apply Rplus_le_le_0_compat; [|apply IH; intros; [apply D2|apply S2]; right; assumption].
  apply Rmult_le_pos; [apply S2; left; reflexivity|]. rewrite D2 by (left; reflexivity). apply Rmult_le_pos; [exact D1|]. apply sumn_nonneg. intros; apply pow2_ge_0.
Qed.
Lemma dissipation_nonneg_h w : 0 <= dissipation pb w.
Proof.
  destruct (ch_signs _ _ CT) as [S1 S2]. unfold dissipation. revert S2. induction (pb_sites pb) as [|s l IH]; intros S2; cbn [suml]; [lra|].
  apply Rplus_le_le_0_compat; [|apply IH; intros; apply S2; right; assumption].
  destruct (S2 s (or_introl eq_refl)) as (J & M & Dm). apply Rmult_le_pos; [exact J|].
  assert (0 <= sumn (pb_dim pb) (fun d => sumn (pb_dim pb) (fun e => sym (gradient_at pb w s) d e ^ 2))) by (apply sumn_nonneg; intros; apply sumn_nonneg; intros; apply pow2_ge_0).
  assert (0 <= speed2 pb (velocity_at pb w s)) by (apply sumn_nonneg; intros; apply pow2_ge_0).
  assert (0 <= divergence_at pb w s ^ 2) by apply pow2_ge_0. nra.
Qed.

Lemma step_work_h k : (tp_scheme p = bdf_2 \/ tp_scheme p = implicit_euler) -> (1 <= k)%nat ->
  (forall j, (j < k)%nat -> at_end (r_clock (run_h h env j s0)) = false) -> succeeded_h k ->
  t (k - 1)%nat < t k /\ 0 <= tol * size_h h (x k) /\
  exists delta, Rabs delta <= / 1000000000000 /\
   suml (pb_sites pb) (fun s => st_JxW s * (st_rho s * sumn (pb_dim pb) (fun d => derivative pb (tp_scheme p) k t x delta s d * u k s d))) + dissipation pb (fst (x k))
   <= tol * size_h h (x k).
Proof.
  intros Hs Hk Hj Hok. destruct (cr_closed _ _ _ _ (eh_run EN)) as (Cu & Cp & Rg).
  destruct (equations_h h r env s0 p (eh_run EN) k Hs Hk Hj) as (Inc & Cf & Fp & A). destruct (A Hok) as (delta & Hdl & B). clear A. rename B into A. split; [exact Inc|].
  destruct (convected_h h r env s0 p (eh_run EN) k Hs Hk Hj) as (a & Ca & Ec).
  destruct (level_free_spec h r CT (snd (x k)) Cp Fp) as (L1 & L2 & _).
  assert (Ad : admissible h (fst (x k)) (fun i => - level_free h (snd (x k)) i)).
  { split; [exact Cf|]. split; [intros i l Hl; rewrite (L1 i l Hl); transitivity (suml l (fun mw => (-1) * (snd mw * level_free h (snd (x k)) (fst mw)))); [rewrite suml_scal; ring|apply suml_ext; intros; ring]|].
    intros m [Hm|Hm]; [transitivity ((-1) * sumn (pb_np pb) (fun i => mode_vector m i * level_free h (snd (x k)) i)); [rewrite <- sumn_scal; apply sumn_ext; intros; ring|rewrite (L2 m Hm); ring]|]. rewrite (ch_standard _ _ CT) in Hm. discriminate Hm. }
  specialize (A _ _ Ad). rewrite (eh_force EN) in A.
  rewrite Ec, (own_power h r CT _ _ _ (x k) (cr_skew _ _ _ _ (eh_run EN)) Cp Ca Cf Fp), Rabs_Ropp in A.
  assert (Sz : magnitude h (fst (x k)) (fun i => - level_free h (snd (x k)) i) = size_h h (x k)).
  { unfold size_h, magnitude. f_equal. f_equal. apply sumn_ext. intros; ring. }
  rewrite Sz in A.
  split; [apply Rle_trans with (2 := A), Rabs_pos|]. exists delta. split; [exact Hdl|]. apply Rle_trans with (2 := A), Rle_abs.
Qed.

(** the time between two levels, the energy, dissipated power and tolerated power of step [k] *)
Definition step_length_h (k : nat) : R := t k - t (k - 1)%nat.
Definition energy_h (k : nat) : R := kinetic_energy pb (fst (x k)).
Definition dissipated_h (k : nat) : R := step_length_h k * dissipation pb (fst (x k)).
Definition slack_h (k : nat) : R := step_length_h k * (tol * size_h h (x k)).
(** Implicit Euler, any step sizes: kinetic energy plus dissipation is not more than before, up to what the tolerance of the solver allows and
    the relative rounding of the leading weight (C02); the change of the velocity itself is damped as well *)
Theorem C110_constrained_euler_step k : tp_scheme p = implicit_euler -> (1 <= k)%nat ->
  (forall j, (j < k)%nat -> at_end (r_clock (run_h h env j s0)) = false) -> succeeded_h k ->
  (1 - 2 / 1000000000000) * energy_h k + energy_of pb (minus_field (u k) (u (k - 1)%nat)) + dissipated_h k <= energy_h (k - 1) + slack_h k.
Proof.
  intros Hs Hk Hj Hok. destruct (step_work_h k (or_intror Hs) Hk Hj Hok) as (Inc & _ & delta & Hd & Hw).
  unfold energy_h, kinetic_energy, dissipated_h, slack_h, step_length_h.
  set (dt := t k - t (k - 1)%nat) in *. assert (Hh : 0 < dt) by (unfold dt; lra).
  rewrite (suml_ext _ _ (fun s => st_JxW s * (st_rho s * sumn (pb_dim pb) (fun d => ((u k s d - u (k - 1)%nat s d) / dt + delta / dt * u k s d) * u k s d)))) in Hw.
  2: { intros s _. f_equal. f_equal. apply sumn_ext. intros d _. f_equal. unfold derivative, difference, lead, three_levels. rewrite Hs. cbn [scheme_eqb andb].
       fold dt. field. lra. }
  rewrite euler_identity in Hw by lra.
  assert (Hd1 := Rle_abs (- delta)). rewrite Rabs_Ropp in Hd1. assert (E0 := energy_nonneg_h (u k)).
  set (A := energy_of pb (u k)) in *. set (B := energy_of pb (u (k - 1)%nat)) in *. set (C := energy_of pb (minus_field (u k) (u (k - 1)%nat))) in *.
  set (D := dissipation pb _) in *. set (T := tol * _) in *. clearbody A B C D T dt. clear - Hh Hw Hd Hd1 E0.
  apply Rmult_le_compat_l with (r := dt) in Hw; [|lra]. replace (dt * ((A - B + C) / dt + 2 * (delta / dt) * A + D)) with (A - B + C + 2 * (delta * A) + dt * D) in Hw by (field; lra).
  assert (- delta * A <= / 1000000000000 * A) by (apply Rmult_le_compat_r; lra). lra.
Qed.
(** The energy norm of BDF-2: half the energy of u_k and half the energy of 2 u_k - u_(k-1) *)
Definition bdf_energy_h (k : nat) : R := (energy_h k + energy_of pb (ahead (u k) (u (k - 1)%nat))) / 2.
Theorem C110_constrained_bdf_step k : tp_scheme p = bdf_2 -> (2 <= k)%nat ->
  (forall j, (j < k)%nat -> at_end (r_clock (run_h h env j s0)) = false) -> succeeded_h k -> step_length_h k = step_length_h (k - 1) ->
  bdf_energy_h k + energy_of pb (bend (u k) (u (k - 1)%nat) (u (k - 2)%nat)) / 2 + dissipated_h k
  <= bdf_energy_h (k - 1) + slack_h k + 3 / 1000000000000 * energy_h k.
Proof.
  intros Hs Hk Hj Hok He. destruct (step_work_h k (or_introl Hs) ltac:(lia) Hj Hok) as (Inc & _ & delta & Hd & Hw).
  unfold bdf_energy_h, energy_h, kinetic_energy, dissipated_h, slack_h. replace (k - 1 - 1)%nat with (k - 2)%nat by lia.
  unfold step_length_h in *. replace (k - 1 - 1)%nat with (k - 2)%nat in He by lia.
  set (dt := t k - t (k - 1)%nat) in *. assert (Hh : 0 < dt) by (unfold dt; lra).
  rewrite (suml_ext _ _ (fun s => st_JxW s * (st_rho s * sumn (pb_dim pb) (fun d => ((3 * u k s d - 4 * u (k - 1)%nat s d + u (k - 2)%nat s d) / (2 * dt) + 3 / 2 * delta / dt * u k s d) * u k s d)))) in Hw.
  2: { intros s _. f_equal. f_equal. apply sumn_ext. intros d _. f_equal. unfold derivative, difference, lead, three_levels. rewrite Hs. cbn [scheme_eqb andb].
       destruct (Nat.leb_spec 2 k) as [_|?]; [|lia]. fold dt.
       replace (t k - t (k - 2)%nat) with (2 * dt) by (unfold dt in *; lra). replace (t (k - 1)%nat - t (k - 2)%nat) with dt by lra.
       replace (t (k - 1)%nat - t k) with (- dt) by (unfold dt; ring). replace (t (k - 2)%nat - t (k - 1)%nat) with (- dt) by lra. replace (t (k - 2)%nat - t k) with (- (2 * dt)) by (unfold dt in *; lra).
       field. lra. }
  rewrite bdf_identity in Hw by lra.
  assert (Hd1 := Rle_abs (- delta)). rewrite Rabs_Ropp in Hd1. assert (E0 := energy_nonneg_h (u k)).
  set (A := energy_of pb (u k)) in *. set (A2 := energy_of pb (ahead (u k) (u (k - 1)%nat))) in *.
  set (B := energy_of pb (u (k - 1)%nat)) in *. set (B2 := energy_of pb (ahead (u (k - 1)%nat) (u (k - 2)%nat))) in *. set (C := energy_of pb (bend _ _ _)) in *.
  set (D := dissipation pb _) in *. set (T := tol * _) in *. clearbody A A2 B B2 C D T dt. clear - Hh Hw Hd Hd1 E0.
  apply Rmult_le_compat_l with (r := dt) in Hw; [|lra].
  replace (dt * (((A + A2) / 2 - (B + B2) / 2 + C / 2) / dt + 2 * (3 / 2 * delta / dt) * A + D)) with ((A + A2) / 2 - (B + B2) / 2 + C / 2 + 3 * (delta * A) + dt * D) in Hw by (field; lra).
  assert (- delta * A <= / 1000000000000 * A) by (apply Rmult_le_compat_r; lra). lra.
Qed.
(** the first step of BDF-2 is a step of implicit Euler *)
Lemma bdf_first_step_h : tp_scheme p = bdf_2 -> at_end (r_clock s0) = false -> succeeded_h 1 ->
  (1 - 6 / 1000000000000) * bdf_energy_h 1 + dissipated_h 1 <= energy_h 0 + 3 / 2 * slack_h 1.
Proof.
  intros Hs Hj Hok.
  assert (Hj2 : forall j, (j < 1)%nat -> at_end (r_clock (run_h h env j s0)) = false) by (intros j L; replace j with 0%nat by lia; exact Hj).
  destruct (step_work_h 1 (or_introl Hs) ltac:(lia) Hj2 Hok) as (Inc & Ht & delta & Hd & Hw).
  unfold bdf_energy_h. change (1 - 1)%nat with 0%nat in *. rewrite start_identity. unfold energy_h, kinetic_energy, dissipated_h, slack_h, step_length_h. change (1 - 1)%nat with 0%nat.
  set (dt := t 1%nat - t 0%nat) in *. assert (Hh : 0 < dt) by (unfold dt; lra).
  rewrite (suml_ext _ _ (fun s => st_JxW s * (st_rho s * sumn (pb_dim pb) (fun d => ((u 1%nat s d - u 0%nat s d) / dt + delta / dt * u 1%nat s d) * u 1%nat s d)))) in Hw.
  2: { intros s _. f_equal. f_equal. apply sumn_ext. intros d _. f_equal. unfold derivative, difference, lead, three_levels. rewrite Hs. cbn [scheme_eqb andb Nat.leb].
       change (1 - 1)%nat with 0%nat. fold dt. field. lra. }
  rewrite euler_identity in Hw by lra.
  assert (Hd1 := Rle_abs (- delta)). rewrite Rabs_Ropp in Hd1. assert (E0 := energy_nonneg_h (u 1%nat)). assert (E1 := energy_nonneg_h (minus_field (u 1%nat) (u 0%nat))).
  assert (E2 := dissipation_nonneg_h (fst (x 1%nat))). assert (E3 := energy_nonneg_h (ahead (u 1%nat) (u 0%nat))). rewrite start_identity in E3.
  set (A := energy_of pb (u 1%nat)) in *. set (B := energy_of pb (u 0%nat)) in *. set (C := energy_of pb (minus_field _ _)) in *.
  set (D := dissipation pb _) in *. set (T := tol * _) in *. clearbody A B C D T dt. clear - Hh Hw Hd Hd1 E0 E1 E2 E3.
  apply Rmult_le_compat_l with (r := dt) in Hw; [|lra]. replace (dt * ((A - B + C) / dt + 2 * (delta / dt) * A + D)) with (A - B + C + 2 * (delta * A) + dt * D) in Hw by (field; lra).
  assert (- delta * A <= / 1000000000000 * A) by (apply Rmult_le_compat_r; lra). assert (0 <= dt * D) by (apply Rmult_le_pos; lra). lra.
Qed.

(** whole runs *)
Theorem C110_constrained_euler_run n : tp_scheme p = implicit_euler ->
  (forall j, (j < n)%nat -> at_end (r_clock (run_h h env j s0)) = false) -> (forall k, (1 <= k <= n)%nat -> succeeded_h k) ->
  (1 - 2 / 1000000000000) ^ n * (energy_h n + sumn n (fun k => dissipated_h (S k))) <= energy_h 0 + sumn n (fun k => slack_h (S k)).
Proof.
  intros Hs Hj Hok. apply accumulate; [lra|]. intros k Hk.
  destruct (step_work_h k (or_intror Hs) ltac:(lia) ltac:(intros; apply Hj; lia) (Hok k Hk)) as (Inc & Ht & _).
  assert (K := C110_constrained_euler_step k Hs ltac:(lia) ltac:(intros; apply Hj; lia) (Hok k Hk)). assert (E := energy_nonneg_h (minus_field (u k) (u (k - 1)%nat))).
  assert (S1 : 0 <= size_h h (x k)) by apply sqrt_pos.
  split; [apply Rmult_le_pos; [unfold step_length_h; lra|apply dissipation_nonneg_h]|]. split; [apply Rmult_le_pos; [unfold step_length_h; lra|exact Ht]|]. lra.
Qed.
Theorem C110_constrained_bdf_run n dt : tp_scheme p = bdf_2 -> (1 <= n)%nat ->
  (forall j, (j < n)%nat -> at_end (r_clock (run_h h env j s0)) = false) -> (forall k, (1 <= k <= n)%nat -> succeeded_h k /\ step_length_h k = dt) ->
  (1 - 6 / 1000000000000) ^ n * (energy_h n / 2 + sumn n (fun k => dissipated_h (S k))) <= energy_h 0 + 3 / 2 * sumn n (fun k => slack_h (S k)).
Proof.
  intros Hs Hn Hj Hok.
  assert (A := accumulate (1 - 6 / 1000000000000) (fun k => if Nat.eqb k 0 then energy_h 0 else bdf_energy_h k) dissipated_h (fun k => 3 / 2 * slack_h k) n).
  cbn beta in A. rewrite sumn_scal in A. cbn [Nat.eqb] in A. destruct (Nat.eqb_spec n 0) as [?|_]; [lia|].
  assert (P : 0 <= (1 - 6 / 1000000000000) ^ n) by (apply pow_le; lra).
  apply Rle_trans with ((1 - 6 / 1000000000000) ^ n * (bdf_energy_h n + sumn n (fun k => dissipated_h (S k)))).
  { apply Rmult_le_compat_l; [exact P|]. apply Rplus_le_compat_r. unfold bdf_energy_h. assert (E := energy_nonneg_h (ahead (u n) (u (n - 1)%nat))). lra. }
  apply A; [lra|]. clear A P. intros k Hk. destruct (Hok k Hk) as [Ok Hh].
  destruct (step_work_h k (or_introl Hs) ltac:(lia) ltac:(intros; apply Hj; lia) Ok) as (Inc & Ht & _).
  assert (S1 : 0 <= size_h h (x k)) by apply sqrt_pos.
  assert (S2 : 0 <= slack_h k) by (apply Rmult_le_pos; [unfold step_length_h; lra|exact Ht]).
  split; [apply Rmult_le_pos; [unfold step_length_h; lra|apply dissipation_nonneg_h]|]. split; [lra|].
  destruct (Nat.eqb_spec k 0) as [?|_]; [lia|]. destruct (Nat.eqb_spec (k - 1) 0) as [Z|Z].
  - replace k with 1%nat in * by lia. apply bdf_first_step_h; [exact Hs|apply (Hj 0%nat); lia|exact Ok].
  - assert (K := C110_constrained_bdf_step k Hs ltac:(lia) ltac:(intros; apply Hj; lia) Ok ltac:(rewrite Hh; symmetry; apply Hok; lia)).
    assert (E := energy_nonneg_h (bend (u k) (u (k - 1)%nat) (u (k - 2)%nat))). assert (E1 := energy_nonneg_h (ahead (u k) (u (k - 1)%nat))).
    assert (E2 := energy_nonneg_h (u k)). unfold bdf_energy_h in *. unfold energy_h, kinetic_energy in *. lra.
Qed.
End Run.

(** ** Example: the enclosed flow of Properties_Energy.v with a third velocity unknown on a hanging node between the free unknown and the one on
    the wall, and two pressure unknowns identified by a periodic boundary.  The mode of unknown 0 alone takes 1/2 of the value of the field *)
Definition eh_phi (f : nat -> R) (w : nat -> R) (i d : nat) : R := if Nat.eqb i 1 then w d else if Nat.eqb i 0 then f d / 2 else f d.
Definition eh_site1 : site :=
  MkSite 1 (eh_phi (fun d => if Nat.eqb d 0 then 1 else 0) (fun _ => 1))
    (fun i d e => eh_phi (fun d => if Nat.eqb d e then (if Nat.eqb d 0 then 1 else - (3)) else 0) (fun _ => 0) i d) (fun _ => / 2) 1 (/ 112) 0.
Definition eh_site2 : site :=
  MkSite 1 (eh_phi (fun _ => 0) (fun _ => 1))
    (fun i d e => eh_phi (fun d => if Nat.eqb d e then (if Nat.eqb d 0 then 2 else 0) else 0) (fun _ => 0) i d) (fun _ => / 2) 1 (/ 112) 0.
Definition eh_pb : problem unit :=
  MkProblem (en_fp (/ 2)) 2 3 2 [eh_site1; eh_site2] (MkConditions (fun id => if Nat.eqb id 5 then Some (fun _ _ _ => 0) else None) (fun _ => false))
    [MkBFace 5%nat [(1%nat, tt, 0%nat)]] (fun _ => None) [] (fun _ => false) None None false.
Definition eh_lines_u : lines := fun i => if Nat.eqb i 2 then Some [(0%nat, / 2); (1%nat, / 2)] else None.
Definition eh_lines_p : lines := fun i => if Nat.eqb i 1 then Some [(0%nat, 1)] else None.
Definition eh_h : hproblem unit := MkHanging eh_pb eh_lines_u eh_lines_p.
Definition eh_s0 : state := MkState (ts_init ex_p) (fun i => if Nat.eqb i 0 then - (3 / 8) else if Nat.eqb i 2 then - (3 / 16) else 0, fun _ => 0) field_zero field_zero (MkPrec 0 0 true 0).
Lemma eh_x1 : let x1 := r_sol (run_h eh_h (en_env (3 / 40)) 1 eh_s0) in
  fst x1 0%nat = - (3 / 10) /\ fst x1 1%nat = 0 /\ fst x1 2%nat = - (3 / 20) /\ snd x1 0%nat = 0 /\ snd x1 1%nat = 0.
Proof.
  intros x1. set (upd := (fun i => if Nat.eqb i 0 then 3 / 40 else 7, fun _ : nat => 0) : field).
  assert (G : exists g : field, x1 = field_add g (distribute_update_h eh_h upd) /\ fst g 0%nat = - (3 / 8) /\ fst g 1%nat = 0 /\ fst g 2%nat = - (3 / 16) /\ snd g 0%nat = 0 /\ snd g 1%nat = 0).
  { eexists. unfold x1. clear x1. cbn [run_h]. unfold advance_time_step_h, evaluate_time_step, solve_nonlinear_system. cbn [fst r_sol r_solution eh_s0].
    unfold shift_pressure_h. change (pb_fix (h_pb eh_h)) with false. cbv iota.
    change (Z.to_nat (fp_max_nl_iteration (pb_fp (h_pb eh_h)))) with 1%nat. cbn [nl_loop]. cbv zeta.
    assert (U : forall tol call, l_update field (solve_system field field_zero (oracles_h eh_h (en_env (3 / 40) 0) (init_time_advance_h eh_h eh_s0)) (en_fp (/ 2)) tol call)
              = distribute_update_h eh_h upd) by reflexivity.
    split.
    - change (fp_linearization (pb_fp (h_pb eh_h))) with coupled_implicit_picard. cbn [is_implicit negb].
      destruct (nltb _ _); cbn [ls_solution]; apply (f_equal (field_add _)); exact (U _ _).
    - cbn [ls_solution init_time_advance_h r_sol fst snd eh_s0 r_clock]. unfold apply_boundary_conditions_u, distribute. cbn. unfold extrapolate. cbn.
      rewrite ?Rmult_0_l. repeat split; rnum; unfold Q2R; cbn; try lra. }
  destruct G as (g & -> & G0 & G1 & G2 & G3 & G4). cbn. rewrite G0, G1, G2, G3, G4. repeat split; lra.
Qed.
Lemma eh_conforming u : conforming eh_h u -> u 1%nat = 0 /\ u 2%nat = u 0%nat / 2.
Proof. intros H. split; [exact (H 1%nat [] eq_refl)|]. rewrite (H 2%nat [(0%nat, / 2)] eq_refl). cbn. lra. Qed.
Lemma eh_is_container : container_h eh_h 1.
Proof.
  constructor.
  - split; [lra|]. intros s [<-|[<-|[]]]; reflexivity.
  - split; [cbn; lra|]. intros s [<-|[<-|[]]]; cbn; lra.
  - intros time i Hn Hd. destruct i as [|[|[|i]]]; [discriminate Hd| |discriminate Hd|discriminate Hd]. split.
    + exists (MkBFace 5%nat [(1%nat, tt, 0%nat)]). split; [left; reflexivity|]. exists (fun _ _ => 0), tt, 0%nat. split; [reflexivity|]. split; [left; reflexivity|reflexivity].
    + intros f v [<-|[]] (g & y & k & E & Hin & ->). cbn in E. inversion E; subst g. reflexivity.
  - intros f [].
  - intros a u Ha Hu. destruct (eh_conforming a Ha) as [A1 A2]. destruct (eh_conforming u Hu) as [U1 U2].
    unfold speed2, divergence_at, velocity_at, gradient_at. cbn. rewrite A1, U1, A2, U2. field.
  - intros m u H; discriminate H.
  - intros m H; discriminate H.
  - reflexivity.
Qed.
Lemma eh_closed_range : closed eh_lines_u /\ closed eh_lines_p /\ in_range eh_h.
Proof.
  split; [|split; [|split; [|split]]].
  - intros i l m w H Hin. unfold eh_lines_u in H. destruct (Nat.eqb i 2); [|discriminate H]. injection H as <-. destruct Hin as [E|[E|[]]]; injection E as <- <-; reflexivity.
  - intros i l m w H Hin. unfold eh_lines_p in H. destruct (Nat.eqb i 1); [|discriminate H]. injection H as <-. destruct Hin as [E|[]]; injection E as <- <-; reflexivity.
  - intros [|[|[|i]]] mw Hi Hin; cbn in Hi, Hin; try lia; try contradiction; destruct Hin as [<-|[]]; cbn; lia.
  - intros [|[|i]] mw Hi Hin; cbn in Hi, Hin; try lia; destruct Hin as [<-|[]]; cbn; lia.
  - intros f a [].
Qed.
Lemma eh_pressure : fulfils eh_lines_p (fun _ => 0).
Proof. intros i l. unfold eh_lines_p. destruct (Nat.eqb i 1); [|discriminate]. intros [= <-]. cbn. ring. Qed.
Lemma eh_admissible v : admissible eh_h (fun i => if Nat.eqb i 0 then v else if Nat.eqb i 2 then v / 2 else 0) (fun _ => 0).
Proof.
  split; [|split].
  - intros [|[|[|i]]] l Hl; cbn in Hl; [discriminate Hl|injection Hl as <-; reflexivity|injection Hl as <-; cbn; lra|discriminate Hl].
  - exact eh_pressure.
  - intros m [Hm|Hm]; discriminate Hm.
Qed.
Lemma eh_power (x : field) V (Q : vec) v : fst x 0%nat = - (3 / 10) -> fst x 1%nat = 0 -> fst x 2%nat = - (3 / 20) -> snd x 0%nat = 0 -> snd x 1%nat = 0 ->
  V 0%nat = v -> V 1%nat = 0 -> V 2%nat = v / 2 -> Q 0%nat = 0 -> Q 1%nat = 0 ->
  let c := next (ts_init ex_p) in
  virtual_power eh_h (now c) (weighted eh_pb c (fst x) (fst (r_sol eh_s0)) (fun _ => 0)) (convective_with eh_pb (convecting c (fst (r_sol eh_s0)) (fun _ => 0)) (fst x)) field_zero x V Q = 0.
Proof.
  intros X0 X1 X2 X3 X4 V0 V1 V2 Q0 Q1 c. destruct en_weights as (W0 & W1 & W2). fold c in W0, W1, W2.
  unfold virtual_power, external_power, inner_power, volume_defect. change (h_pb eh_h) with eh_pb. change (pb_sites eh_pb) with [eh_site1; eh_site2].
  change (pb_ofaces eh_pb) with (@nil (oface unit)). change (pb_dim eh_pb) with 2%nat. change (pb_nu eh_pb) with 3%nat. change (pb_np eh_pb) with 2%nat. cbn [suml sumn].
  unfold convective_with. change (fp_linearization (pb_fp eh_pb)) with coupled_implicit_picard. cbv iota. unfold weighted, transport. rewrite W0, W1, W2.
  unfold divergence_at, pressure_at, sym. change (fp_beta (pb_fp eh_pb)) with (/ 2). change (pb_dim eh_pb) with 2%nat. change (pb_np eh_pb) with 2%nat. cbn [sumn].
  unfold velocity_at, gradient_at. change (pb_nu eh_pb) with 3%nat. cbn [sumn]. cbn. rewrite X0, X1, X2, X3, X4, V0, V1, V2, Q0, Q1. field.
Qed.
Lemma eh_report : report_h eh_h (en_env (3 / 40)) 0 eh_s0 <> (0, 0)%Z.
Proof.
  set (s1 := init_time_advance_h eh_h eh_s0). set (x1 := r_sol (run_h eh_h (en_env (3 / 40)) 1 eh_s0)). destruct eh_closed_range as (_ & _ & Rg).
  destruct eh_x1 as (X0 & X1 & X2 & X3 & X4). fold x1 in X0, X1, X2, X3, X4.
  assert (Small : compute_residual_h eh_h (r_clock s1) (e_user (en_env (3 / 40) 0)) (r_old s1) (r_oo s1) x1 < / 1000000).
  { assert (Ht : tau1 (r_clock s1) = 1) by (cbn; unfold Q2R; cbn; lra).
    set (r := system_rhs_h eh_h (r_clock s1) (e_user (en_env (3 / 40) 0)) (r_old s1) (r_oo s1) x1).
    assert (T := residual_tested eh_h (r_clock s1) (e_user (en_env (3 / 40) 0)) (r_old s1) (r_oo s1) x1 _ _ Ht eq_refl eq_refl Rg (eh_admissible (fst r 0%nat))).
    cbv zeta in T. fold r in T.
    assert (T2 := eq_trans T (eh_power x1 (fun i => if Nat.eqb i 0 then fst r 0%nat else if Nat.eqb i 2 then fst r 0%nat / 2 else 0) (fun _ => 0) (fst r 0%nat) X0 X1 X2 X3 X4 eq_refl eq_refl eq_refl eq_refl eq_refl)).
    clear T. rename T2 into T. change (pb_nu (h_pb eh_h)) with 3%nat in T. change (pb_np (h_pb eh_h)) with 2%nat in T. cbn [sumn Nat.eqb] in T.
    assert (K0 : forall tm g, const_rhs_h eh_h tm g = 0) by (intros tm g; unfold const_rhs_h, const_rhs; cbn; ring).
    assert (R1 : fst r 1%nat = 0). { cbn -[cell_terms const_rhs_h]. rewrite K0. lra. }
    assert (R2 : fst r 2%nat = 0). { cbn -[cell_terms const_rhs_h]. rewrite K0. lra. }
    assert (P : forall i, snd r i = 0).
    { intros i. unfold r, system_rhs_h. cbn [snd]. unfold average_projection. change (pb_m0 (h_pb eh_h)) with (@None mode). change (pb_m1 (h_pb eh_h)) with (@None mode).
      assert (K : forall j, condense (pb_np (h_pb eh_h)) (h_p eh_h) (snd (cell_terms eh_h (r_clock s1) (r_old s1) (r_oo s1) x1)) j = 0).
      { intros j. 
        assert (K : forall k, snd (cell_terms eh_h (r_clock s1) (r_old s1) (r_oo s1) x1) k = 0).
        { intros k. unfold cell_terms. destruct (system_rhs_form (without_constraints (h_pb eh_h)) (r_clock s1) field_zero (r_old s1) (r_oo s1) x1 Ht eq_refl eq_refl) as [_ B]. rewrite B.
          unfold without_means. cbn [without_constraints pb_m0 pb_m1 without_mean]. unfold continuity_defect, divergence_at, gradient_at.
          change (pb_sites (without_constraints (h_pb eh_h))) with [eh_site1; eh_site2]. change (pb_dim (without_constraints (h_pb eh_h))) with 2%nat. change (pb_nu (without_constraints (h_pb eh_h))) with 3%nat.
          cbn [pb_con_p suml sumn]. rewrite X0, X1, X2. cbn. field. }
        unfold condense. apply sumn_zero. intros k _. apply suml_zero. intros mw _. destruct (Nat.eqb (fst mw) j); [|reflexivity]. rewrite K. ring. }
      destruct (_ && _); cbn [project_mode]; rewrite K; cbn; ring. }
    unfold compute_residual_h. rewrite norm_of_parts. fold r. change (pb_nu (h_pb eh_h)) with 3%nat. change (pb_np (h_pb eh_h)) with 2%nat. cbn [sumn].
    rewrite R1, R2, !P in *. set (a := fst r 0%nat) in *. clearbody a. clear - T.
    assert (Ha : a = 0) by nra. subst a. match goal with |- sqrt ?e < _ => replace e with 0 by ring end. rewrite sqrt_0. lra. }
  unfold report_h, advance_time_step_h, evaluate_time_step, solve_nonlinear_system. cbn [snd r_outcome run_h]. fold s1.
  match goal with |- context [nl_loop field field_add field_zero ?n ?o ?f ?q ?k ?l] =>
    destruct (loop_implicit field_add field_zero o f q k eq_refl n l ltac:(cbn; lia)) as [A B]; set (s2 := nl_loop field field_add field_zero n o f q k l) in * end.
  assert (Ex : ls_solution field s2 = x1).
  { unfold x1. cbn [run_h]. unfold advance_time_step_h, evaluate_time_step, solve_nonlinear_system. cbn [fst r_sol r_solution]. fold s1. unfold shift_pressure_h.
    change (pb_fix (h_pb eh_h)) with false. cbv iota. reflexivity. }
  cbn [oracles_h o_residual] in A. rewrite Ex in A. rewrite <- A in Small.
  change (nltb (n:=RNum) (ls_res field s2) (fp_tol_nl_iteration (pb_fp (h_pb eh_h)))) with (Rltb (ls_res field s2) (/ 1000000)) in B.
  destruct (Rltb_spec (ls_res field s2) (/ 1000000)) as [_|Q]; [|exfalso; apply Q, Small].
  cbn [ls_step] in B. change (Z.to_nat (fp_max_nl_iteration (pb_fp (h_pb eh_h)))) with 1%nat in B. change (fp_max_nl_iteration (pb_fp (h_pb eh_h))) with 1%Z.
  assert (E : ls_step field s2 = 0%Z) by lia. rewrite E. cbn. discriminate.
Qed.
Lemma eh_run_ok : container_run_h eh_h 1 eh_s0 ex_p.
Proof.
  constructor; try reflexivity.
  - exact eh_is_container.
  - unfold well_posed; cbn; rnum; lra.
  - right; left; reflexivity.
  - split; reflexivity.
  - exact eh_closed_range.
  - intros [|[|[|i]]] l Hl; cbn in Hl; [discriminate Hl|injection Hl as <-; reflexivity|injection Hl as <-; cbn; lra|discriminate Hl].
  - split; exact eh_pressure.
Qed.
(** the hypotheses of C110_constrained_euler_step and C110_constrained_euler_run hold; viscosity takes energy out, the hanging unknown follows *)
Example C110_constrained_nonvacuous : let env := en_env (3 / 40) in
  enclosed_run_h eh_h 1 env eh_s0 ex_p /\ tp_scheme ex_p = implicit_euler /\ succeeded_h eh_h env eh_s0 1 /\
  (forall j, (j < 1)%nat -> at_end (r_clock (run_h eh_h env j eh_s0)) = false) /\
  energy_h eh_h env eh_s0 0 = 9 / 128 /\ energy_h eh_h env eh_s0 1 = 9 / 200 /\ fst (r_sol (run_h eh_h env 1 eh_s0)) 2%nat = - (3 / 20).
Proof.
  intros env. destruct eh_x1 as (X0 & X1 & X2 & _). fold env in X0, X1, X2.
  split; [|split; [reflexivity|split; [exact eh_report|split; [intros j H; replace j with 0%nat by lia; reflexivity|]]]].
  - constructor; [|reflexivity]. exact eh_run_ok.
  - unfold energy_h. split; [|split; [|exact X2]].
    + unfold kinetic_energy, energy_of, speed2, velocity_at. cbn. field.
    + set (v := fst (r_sol (run_h eh_h env 1 eh_s0))) in *. clearbody v. unfold kinetic_energy, energy_of, speed2, velocity_at. cbn. rewrite X0, X1, X2. field.
Qed.
Print Assumptions C110_constrained_euler_step.
Print Assumptions C110_constrained_bdf_step.
Print Assumptions C110_constrained_euler_run.
Print Assumptions C110_constrained_bdf_run.
