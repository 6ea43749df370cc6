(** * C118: balanced forces on meshes with hanging nodes and periodic boundaries *)
From Coq Require Import Reals List Bool Arith ZArith Lra Lia.
From Verif Require Import Num SumR Model_Parameters Model_TimeStepping Spec_TimeStepping Proofs_TimeStepping Proofs_TimeStepping2.
From Verif Require Import Model_NonlinearSolver Properties_NonlinearSolver Model_NSOperator Properties_NSOperator.
From Verif Require Import Model_BoundaryValues Properties_BoundaryValues Model_Run Properties_Run Properties_Energy Model_HangingRun Properties_HangingRun Properties_HangingEnergy.
Import ListNotations.
Open Scope R_scope.

(** ** Specification *)
Section Spec.
Context {point : Type}.
Variable h : hproblem point.
Notation pb := (h_pb h).
(** the user's force, distributed through the constraints, does the work - (P, div v) in every conforming velocity v, with a continuous pressure
    P: the weak form of grad P *)
Definition gradient_force_h (F : field) (P : vec) : Prop :=
  (forall v, conforming h v -> sumn (pb_nu pb) (fun i => fst F i * v i) = - suml (pb_sites pb) (fun s => st_JxW s * (pressure_at pb P s * divergence_at pb v s))) /\
  (forall i, snd F i = 0) /\ fulfils (h_p h) P.
(** velocity, and pressure relative to P *)
Definition relative (x : field) (P : vec) : field := (fst x, fun i => snd x i - P i).
End Spec.

Section Work.
Context {point : Type}.
Variable h : hproblem point.
Variable r : R.
Hypothesis CT : container_h h r.
Notation pb := (h_pb h).
Lemma relative_power time (dudt : site -> nat -> R) (a : vec) (F x : field) (P : vec) : fp_beta (pb_fp pb) = / 2 -> closed (h_p h) ->
  conforming h a -> conforming h (fst x) -> gradient_force_h h F P -> fulfils (h_p h) (snd (relative x P)) ->
  virtual_power h time dudt (transport pb a (fst x)) F x (fst x) (fun i => - level_free h (snd (relative x P)) i) =
  - (suml (pb_sites pb) (fun s => st_JxW s * (st_rho s * sumn (pb_dim pb) (fun d => dudt s d * velocity_at pb (fst x) s d))) + dissipation pb (fst x)).
Proof.
  intros B C Ha Hu (F1 & F2 & _) Hp. transitivity (virtual_power h time dudt (transport pb a (fst x)) field_zero (relative x P) (fst x) (fun i => - level_free h (snd (relative x P)) i)); [|exact (own_power h r CT time dudt a (relative x P) B C Ha Hu Hp)].
  unfold virtual_power. change (fst (relative x P)) with (fst x). cbn [field_zero fst snd]. rewrite (F1 _ Hu). rewrite !(sumn_zero (pb_np pb)) by (intros; rewrite ?F2; ring). rewrite (sumn_zero (pb_nu pb)) by (intros; ring).
  assert (K : inner_power h dudt (transport pb a (fst x)) (relative x P) (fst x)
    = inner_power h dudt (transport pb a (fst x)) x (fst x) + suml (pb_sites pb) (fun s => st_JxW s * (pressure_at pb P s * divergence_at pb (fst x) s))).
  { unfold inner_power, relative. cbn [fst snd]. rewrite <- suml_plus. apply suml_ext. intros s _.
    assert (E : pressure_at pb (fun j => snd x j - P j) s = pressure_at pb (snd x) s - pressure_at pb P s).
    { unfold pressure_at. rewrite <- sumn_minus. apply sumn_ext. intros. ring. }
    rewrite E. ring. }
  rewrite K. unfold volume_defect. change (fst (relative x P)) with (fst x). ring.
Qed.
End Work.

(** ** The run *)
Section Run.
Context {point : Type}.
Variable h : hproblem point.
Variable r : R.
Variable env : nat -> environment.
Variable s0 : state.
Variable p : ts_params RNum.
Variable P : nat -> vec.
Notation pb := (h_pb h).
Notation x := (fun k => r_sol (run_h h env k s0)).
Notation t := (fun k => now (r_clock (run_h h env k s0))).
Notation u k := (velocity_at pb (fst (r_sol (run_h h env k s0)))).
Notation tol := (tolerance pb).
Notation succeeded_h := (succeeded_h h env s0).
(** as enclosed_run_h (C110), but the force of step [k] is the gradient of the discrete pressure [P k] *)
Record balanced_run_h : Prop := {
  bh_run : container_run_h h r s0 p;
  bh_force : forall k, gradient_force_h h (e_user (env k)) (P (S k)) }.
Hypothesis BR : balanced_run_h.
Let CT := cr_container h r s0 p (bh_run BR).
(** the same problem without force, to use the lemmas of C110 *)
Let quiet : nat -> environment := fun k => MkEnv (e_cheap (env k)) (e_strong (env k)) (e_projection (env k)) (e_shift (env k)) field_zero.
Lemma quiet_run_h : enclosed_run_h h r quiet s0 p.
Proof. constructor; [exact (bh_run BR)|reflexivity]. Qed.
Notation energy_nonneg_h := (energy_nonneg_h h r quiet s0 p quiet_run_h).
Notation dissipation_nonneg_h := (dissipation_nonneg_h h r quiet s0 p quiet_run_h).
Notation step_length_h := (step_length_h h env s0).
Notation energy_h := (energy_h h env s0).
Notation dissipated_h := (dissipated_h h env s0).
Notation bdf_energy_h := (bdf_energy_h h env s0).
Lemma step_work_b k : (tp_scheme p = bdf_2 \/ tp_scheme p = implicit_euler) -> (1 <= k)%nat ->
  (forall j, (j < k)%nat -> at_end (r_clock (run_h h env j s0)) = false) -> succeeded_h k ->
  t (k - 1)%nat < t k /\ 0 <= tol * size_h h (relative (x k) (P k)) /\
  exists delta, Rabs delta <= / 1000000000000 /\
   suml (pb_sites pb) (fun s => st_JxW s * (st_rho s * sumn (pb_dim pb) (fun d => derivative pb (tp_scheme p) k t x delta s d * u k s d))) + dissipation pb (fst (x k))
   <= tol * size_h h (relative (x k) (P k)).
Proof.
  intros Hs Hk Hj Hok. destruct (cr_closed _ _ _ _ (bh_run BR)) as (Cu & Cp & Rg).
  destruct (equations_h h r env s0 p (bh_run BR) k Hs Hk Hj) as (Inc & Cf & Fp & A). destruct (A Hok) as (delta & Hdl & B). clear A. rename B into A. split; [exact Inc|].
  destruct (convected_h h r env s0 p (bh_run BR) k Hs Hk Hj) as (a & Ca & Ec).
  assert (Fg := bh_force BR (k - 1)). replace (S (k - 1)) with k in Fg by lia.
  assert (Fr : fulfils (h_p h) (snd (relative (x k) (P k)))).
  { assert (L := fulfils_lin (h_p h) (snd (x k)) (P k) 1 (-1) Fp (proj2 (proj2 Fg))). intros i l Hl. specialize (L i l Hl). cbv beta in L. unfold relative. cbn [snd].
    transitivity (snd (x k) i * 1 + P k i * -1); [ring|]. rewrite L. apply suml_ext. intros; ring. }
  destruct (level_free_spec h r CT (snd (relative (x k) (P k))) Cp Fr) as (L1 & L2 & _).
  assert (Ad : admissible h (fst (x k)) (fun i => - level_free h (snd (relative (x k) (P k))) i)).
  { split; [exact Cf|]. split; [intros i l Hl; rewrite (L1 i l Hl); transitivity (suml l (fun mw => (-1) * (snd mw * level_free h (snd (relative (x k) (P k))) (fst mw)))); [rewrite suml_scal; ring|apply suml_ext; intros; ring]|].
    intros m [Hm|Hm]; [transitivity ((-1) * sumn (pb_np pb) (fun i => mode_vector m i * level_free h (snd (relative (x k) (P k))) i)); [rewrite <- sumn_scal; apply sumn_ext; intros; ring|rewrite (L2 m Hm); ring]|]. rewrite (ch_standard _ _ CT) in Hm. discriminate Hm. }
  specialize (A _ _ Ad).
  rewrite Ec, (relative_power h r CT _ _ _ (e_user (env (k - 1))) (x k) (P k) (cr_skew _ _ _ _ (bh_run BR)) Cp Ca Cf Fg Fr), Rabs_Ropp in A.
  assert (Sz : magnitude h (fst (x k)) (fun i => - level_free h (snd (relative (x k) (P k))) i) = size_h h (relative (x k) (P k))).
  { unfold size_h, magnitude. f_equal. f_equal. apply sumn_ext. intros; ring. }
  rewrite Sz in A.
  split; [apply Rle_trans with (2 := A), Rabs_pos|]. exists delta. split; [exact Hdl|]. apply Rle_trans with (2 := A), Rle_abs.
Qed.

(** what the tolerance of the solver allows: the pressure counts relative to [P k] *)
Definition slack_b (k : nat) : R := step_length_h k * (tol * size_h h (relative (x k) (P k))).
(** Implicit Euler, any step sizes: kinetic energy plus dissipation is not more than before, up to what the tolerance of the solver allows and
    the relative rounding of the leading weight (C02); the change of the velocity itself is damped as well *)
Theorem C118_constrained_euler_step k : tp_scheme p = implicit_euler -> (1 <= k)%nat ->
  (forall j, (j < k)%nat -> at_end (r_clock (run_h h env j s0)) = false) -> succeeded_h k ->
  (1 - 2 / 1000000000000) * energy_h k + energy_of pb (minus_field (u k) (u (k - 1)%nat)) + dissipated_h k <= energy_h (k - 1) + slack_b k.
Proof.
  intros Hs Hk Hj Hok. destruct (step_work_b k (or_intror Hs) Hk Hj Hok) as (Inc & _ & delta & Hd & Hw).
  unfold Properties_HangingEnergy.energy_h, kinetic_energy, Properties_HangingEnergy.dissipated_h, slack_b, Properties_HangingEnergy.step_length_h.
  set (dt := t k - t (k - 1)%nat) in *. assert (Hh : 0 < dt) by (unfold dt; lra).
  rewrite (suml_ext _ _ (fun s => st_JxW s * (st_rho s * sumn (pb_dim pb) (fun d => ((u k s d - u (k - 1)%nat s d) / dt + delta / dt * u k s d) * u k s d)))) in Hw.
  2: { intros s _. f_equal. f_equal. apply sumn_ext. intros d _. f_equal. unfold derivative, difference, lead, three_levels. rewrite Hs. cbn [scheme_eqb andb].
       fold dt. field. lra. }
  rewrite euler_identity in Hw by lra.
  assert (Hd1 := Rle_abs (- delta)). rewrite Rabs_Ropp in Hd1. assert (E0 := energy_nonneg_h (u k)).
  set (A := energy_of pb (u k)) in *. set (B := energy_of pb (u (k - 1)%nat)) in *. set (C := energy_of pb (minus_field (u k) (u (k - 1)%nat))) in *.
  set (D := dissipation pb _) in *. set (T := tol * _) in *. clearbody A B C D T dt. clear - Hh Hw Hd Hd1 E0.
  apply Rmult_le_compat_l with (r := dt) in Hw; [|lra]. replace (dt * ((A - B + C) / dt + 2 * (delta / dt) * A + D)) with (A - B + C + 2 * (delta * A) + dt * D) in Hw by (field; lra).
  assert (- delta * A <= / 1000000000000 * A) by (apply Rmult_le_compat_r; lra). lra.
Qed.
(** The energy norm of BDF-2: half the energy of u_k and half the energy of 2 u_k - u_(k-1) *)
Theorem C118_constrained_bdf_step k : tp_scheme p = bdf_2 -> (2 <= k)%nat ->
  (forall j, (j < k)%nat -> at_end (r_clock (run_h h env j s0)) = false) -> succeeded_h k -> step_length_h k = step_length_h (k - 1) ->
  bdf_energy_h k + energy_of pb (bend (u k) (u (k - 1)%nat) (u (k - 2)%nat)) / 2 + dissipated_h k
  <= bdf_energy_h (k - 1) + slack_b k + 3 / 1000000000000 * energy_h k.
Proof.
  intros Hs Hk Hj Hok He. destruct (step_work_b k (or_introl Hs) ltac:(lia) Hj Hok) as (Inc & _ & delta & Hd & Hw).
  unfold Properties_HangingEnergy.bdf_energy_h, Properties_HangingEnergy.energy_h, kinetic_energy, dissipated_h, slack_b. replace (k - 1 - 1)%nat with (k - 2)%nat by lia.
  unfold Properties_HangingEnergy.step_length_h in *. replace (k - 1 - 1)%nat with (k - 2)%nat in He by lia.
  set (dt := t k - t (k - 1)%nat) in *. assert (Hh : 0 < dt) by (unfold dt; lra).
  rewrite (suml_ext _ _ (fun s => st_JxW s * (st_rho s * sumn (pb_dim pb) (fun d => ((3 * u k s d - 4 * u (k - 1)%nat s d + u (k - 2)%nat s d) / (2 * dt) + 3 / 2 * delta / dt * u k s d) * u k s d)))) in Hw.
  2: { intros s _. f_equal. f_equal. apply sumn_ext. intros d _. f_equal. unfold derivative, difference, lead, three_levels. rewrite Hs. cbn [scheme_eqb andb].
       destruct (Nat.leb_spec 2 k) as [_|?]; [|lia]. fold dt.
       replace (t k - t (k - 2)%nat) with (2 * dt) by (unfold dt in *; lra). replace (t (k - 1)%nat - t (k - 2)%nat) with dt by lra.
       replace (t (k - 1)%nat - t k) with (- dt) by (unfold dt; ring). replace (t (k - 2)%nat - t (k - 1)%nat) with (- dt) by lra. replace (t (k - 2)%nat - t k) with (- (2 * dt)) by (unfold dt in *; lra).
       field. lra. }
  rewrite bdf_identity in Hw by lra.
  assert (Hd1 := Rle_abs (- delta)). rewrite Rabs_Ropp in Hd1. assert (E0 := energy_nonneg_h (u k)).
  set (A := energy_of pb (u k)) in *. set (A2 := energy_of pb (ahead (u k) (u (k - 1)%nat))) in *.
  set (B := energy_of pb (u (k - 1)%nat)) in *. set (B2 := energy_of pb (ahead (u (k - 1)%nat) (u (k - 2)%nat))) in *. set (C := energy_of pb (bend _ _ _)) in *.
  set (D := dissipation pb _) in *. set (T := tol * _) in *. clearbody A A2 B B2 C D T dt. clear - Hh Hw Hd Hd1 E0.
  apply Rmult_le_compat_l with (r := dt) in Hw; [|lra].
  replace (dt * (((A + A2) / 2 - (B + B2) / 2 + C / 2) / dt + 2 * (3 / 2 * delta / dt) * A + D)) with ((A + A2) / 2 - (B + B2) / 2 + C / 2 + 3 * (delta * A) + dt * D) in Hw by (field; lra).
  assert (- delta * A <= / 1000000000000 * A) by (apply Rmult_le_compat_r; lra). lra.
Qed.
(** the first step of BDF-2 is a step of implicit Euler *)
Lemma bdf_first_step_b : tp_scheme p = bdf_2 -> at_end (r_clock s0) = false -> succeeded_h 1 ->
  (1 - 6 / 1000000000000) * bdf_energy_h 1 + dissipated_h 1 <= energy_h 0 + 3 / 2 * slack_b 1.
Proof.
  intros Hs Hj Hok.
  assert (Hj2 : forall j, (j < 1)%nat -> at_end (r_clock (run_h h env j s0)) = false) by (intros j L; replace j with 0%nat by lia; exact Hj).
  destruct (step_work_b 1 (or_introl Hs) ltac:(lia) Hj2 Hok) as (Inc & Ht & delta & Hd & Hw).
  unfold Properties_HangingEnergy.bdf_energy_h. change (1 - 1)%nat with 0%nat in *. rewrite start_identity. unfold Properties_HangingEnergy.energy_h, kinetic_energy, Properties_HangingEnergy.dissipated_h, slack_b, Properties_HangingEnergy.step_length_h. change (1 - 1)%nat with 0%nat.
  set (dt := t 1%nat - t 0%nat) in *. assert (Hh : 0 < dt) by (unfold dt; lra).
  rewrite (suml_ext _ _ (fun s => st_JxW s * (st_rho s * sumn (pb_dim pb) (fun d => ((u 1%nat s d - u 0%nat s d) / dt + delta / dt * u 1%nat s d) * u 1%nat s d)))) in Hw.
  2: { intros s _. f_equal. f_equal. apply sumn_ext. intros d _. f_equal. unfold derivative, difference, lead, three_levels. rewrite Hs. cbn [scheme_eqb andb Nat.leb].
       change (1 - 1)%nat with 0%nat. fold dt. field. lra. }
  rewrite euler_identity in Hw by lra.
  assert (Hd1 := Rle_abs (- delta)). rewrite Rabs_Ropp in Hd1. assert (E0 := energy_nonneg_h (u 1%nat)). assert (E1 := energy_nonneg_h (minus_field (u 1%nat) (u 0%nat))).
  assert (E2 := dissipation_nonneg_h (fst (x 1%nat))). assert (E3 := energy_nonneg_h (ahead (u 1%nat) (u 0%nat))). rewrite start_identity in E3.
  set (A := energy_of pb (u 1%nat)) in *. set (B := energy_of pb (u 0%nat)) in *. set (C := energy_of pb (minus_field _ _)) in *.
  set (D := dissipation pb _) in *. set (T := tol * _) in *. clearbody A B C D T dt. clear - Hh Hw Hd Hd1 E0 E1 E2 E3.
  apply Rmult_le_compat_l with (r := dt) in Hw; [|lra]. replace (dt * ((A - B + C) / dt + 2 * (delta / dt) * A + D)) with (A - B + C + 2 * (delta * A) + dt * D) in Hw by (field; lra).
  assert (- delta * A <= / 1000000000000 * A) by (apply Rmult_le_compat_r; lra). assert (0 <= dt * D) by (apply Rmult_le_pos; lra). lra.
Qed.

(** whole runs *)
Theorem C118_constrained_euler_run n : tp_scheme p = implicit_euler ->
  (forall j, (j < n)%nat -> at_end (r_clock (run_h h env j s0)) = false) -> (forall k, (1 <= k <= n)%nat -> succeeded_h k) ->
  (1 - 2 / 1000000000000) ^ n * (energy_h n + sumn n (fun k => dissipated_h (S k))) <= energy_h 0 + sumn n (fun k => slack_b (S k)).
Proof.
  intros Hs Hj Hok. apply accumulate; [lra|]. intros k Hk.
  destruct (step_work_b k (or_intror Hs) ltac:(lia) ltac:(intros; apply Hj; lia) (Hok k Hk)) as (Inc & Ht & _).
  assert (K := C118_constrained_euler_step k Hs ltac:(lia) ltac:(intros; apply Hj; lia) (Hok k Hk)). assert (E := energy_nonneg_h (minus_field (u k) (u (k - 1)%nat))).
  split; [apply Rmult_le_pos; [unfold Properties_HangingEnergy.step_length_h; lra|apply dissipation_nonneg_h]|]. split; [apply Rmult_le_pos; [unfold Properties_HangingEnergy.step_length_h; lra|exact Ht]|]. lra.
Qed.
Theorem C118_constrained_bdf_run n dt : tp_scheme p = bdf_2 -> (1 <= n)%nat ->
  (forall j, (j < n)%nat -> at_end (r_clock (run_h h env j s0)) = false) -> (forall k, (1 <= k <= n)%nat -> succeeded_h k /\ step_length_h k = dt) ->
  (1 - 6 / 1000000000000) ^ n * (energy_h n / 2 + sumn n (fun k => dissipated_h (S k))) <= energy_h 0 + 3 / 2 * sumn n (fun k => slack_b (S k)).
Proof.
  intros Hs Hn Hj Hok.
  assert (A := accumulate (1 - 6 / 1000000000000) (fun k => if Nat.eqb k 0 then energy_h 0 else bdf_energy_h k) dissipated_h (fun k => 3 / 2 * slack_b k) n).
  cbn beta in A. rewrite sumn_scal in A. cbn [Nat.eqb] in A. destruct (Nat.eqb_spec n 0) as [?|_]; [lia|].
  assert (Pf : 0 <= (1 - 6 / 1000000000000) ^ n) by (apply pow_le; lra).
  apply Rle_trans with ((1 - 6 / 1000000000000) ^ n * (bdf_energy_h n + sumn n (fun k => dissipated_h (S k)))).
  { apply Rmult_le_compat_l; [exact Pf|]. apply Rplus_le_compat_r. unfold Properties_HangingEnergy.bdf_energy_h. assert (E := energy_nonneg_h (ahead (u n) (u (n - 1)%nat))). lra. }
  apply A; [lra|]. clear A Pf. intros k Hk. destruct (Hok k Hk) as [Ok Hh].
  destruct (step_work_b k (or_introl Hs) ltac:(lia) ltac:(intros; apply Hj; lia) Ok) as (Inc & Ht & _).
  assert (S2 : 0 <= slack_b k) by (apply Rmult_le_pos; [unfold Properties_HangingEnergy.step_length_h; lra|exact Ht]).
  split; [apply Rmult_le_pos; [unfold Properties_HangingEnergy.step_length_h; lra|apply dissipation_nonneg_h]|]. split; [lra|].
  destruct (Nat.eqb_spec k 0) as [?|_]; [lia|]. destruct (Nat.eqb_spec (k - 1) 0) as [Z|Z].
  - replace k with 1%nat in * by lia. apply bdf_first_step_b; [exact Hs|apply (Hj 0%nat); lia|exact Ok].
  - assert (K := C118_constrained_bdf_step k Hs ltac:(lia) ltac:(intros; apply Hj; lia) Ok ltac:(rewrite Hh; symmetry; apply Hok; lia)).
    assert (E := energy_nonneg_h (bend (u k) (u (k - 1)%nat) (u (k - 2)%nat))). assert (E1 := energy_nonneg_h (ahead (u k) (u (k - 1)%nat))).
    assert (E2 := energy_nonneg_h (u k)). unfold Properties_HangingEnergy.bdf_energy_h in *. unfold Properties_HangingEnergy.energy_h, kinetic_energy in *. lra.
Qed.

(** A fluid that starts at rest: the kinetic energy at any later time is bounded by what the solver tolerance allows, however strong the force
    and however long the run *)
Theorem C118_constrained_rest_euler n : tp_scheme p = implicit_euler -> energy_h 0 = 0 ->
  (forall j, (j < n)%nat -> at_end (r_clock (run_h h env j s0)) = false) -> (forall k, (1 <= k <= n)%nat -> succeeded_h k) ->
  (1 - 2 / 1000000000000) ^ n * energy_h n <= sumn n (fun k => slack_b (S k)).
Proof.
  intros Hs H0 Hj Hok. assert (K := C118_constrained_euler_run n Hs Hj Hok). rewrite H0 in K.
  assert (F : 0 <= (1 - 2 / 1000000000000) ^ n) by (apply pow_le; lra).
  assert (D : 0 <= sumn n (fun k => dissipated_h (S k))).
  { apply sumn_nonneg. intros k Hk. destruct (step_work_b (S k) (or_intror Hs) ltac:(lia) ltac:(intros; apply Hj; lia) (Hok (S k) ltac:(lia))) as (Inc & _).
    apply Rmult_le_pos; [unfold Properties_HangingEnergy.step_length_h; lra|apply dissipation_nonneg_h]. }
  rewrite Rmult_plus_distr_l in K. assert (G := Rmult_le_pos _ _ F D). lra.
Qed.
Theorem C118_constrained_rest_bdf n dt : tp_scheme p = bdf_2 -> energy_h 0 = 0 -> (1 <= n)%nat ->
  (forall j, (j < n)%nat -> at_end (r_clock (run_h h env j s0)) = false) -> (forall k, (1 <= k <= n)%nat -> succeeded_h k /\ step_length_h k = dt) ->
  (1 - 6 / 1000000000000) ^ n * energy_h n <= 3 * sumn n (fun k => slack_b (S k)).
Proof.
  intros Hs H0 Hn Hj Hok. assert (K := C118_constrained_bdf_run n dt Hs Hn Hj Hok). rewrite H0 in K.
  assert (F : 0 <= (1 - 6 / 1000000000000) ^ n) by (apply pow_le; lra).
  assert (D : 0 <= sumn n (fun k => dissipated_h (S k))).
  { apply sumn_nonneg. intros k Hk. destruct (step_work_b (S k) (or_introl Hs) ltac:(lia) ltac:(intros; apply Hj; lia) (proj1 (Hok (S k) ltac:(lia)))) as (Inc & _).
    apply Rmult_le_pos; [unfold Properties_HangingEnergy.step_length_h; lra|apply dissipation_nonneg_h]. }
  rewrite Rmult_plus_distr_l in K. assert (G := Rmult_le_pos _ _ F D). lra.
Qed.
End Run.

(** ** Example: the hanging node of C110_constrained_nonvacuous, pressure modes that are not constant: the force - 4 on the free unknown (of the
    direction that the discrete pressure 2 balances) drives no flow, the pressure takes it *)
Definition eb_site1 : site :=
  MkSite 1 (eh_phi (fun d => if Nat.eqb d 0 then 1 else 0) (fun _ => 1))
    (fun i d e => eh_phi (fun d => if Nat.eqb d e then (if Nat.eqb d 0 then 1 else - (3)) else 0) (fun _ => 0) i d) (fun _ => / 2) 1 (/ 112) 0.
Definition eb_site2 : site :=
  MkSite 1 (eh_phi (fun _ => 0) (fun _ => 1))
    (fun i d e => eh_phi (fun d => if Nat.eqb d e then (if Nat.eqb d 0 then 2 else 0) else 0) (fun _ => 0) i d) (fun _ => 1) 1 (/ 112) 0.
Definition eb_pb : problem unit :=
  MkProblem (en_fp (/ 2)) 2 3 2 [eb_site1; eb_site2] (MkConditions (fun id => if Nat.eqb id 5 then Some (fun _ _ _ => 0) else None) (fun _ => false))
    [MkBFace 5%nat [(1%nat, tt, 0%nat)]] (fun _ => None) [] (fun _ => false) None None false.
Definition eb_h : hproblem unit := MkHanging eb_pb eh_lines_u eh_lines_p.
Definition eb_s0 : state := MkState (ts_init ex_p) field_zero field_zero field_zero (MkPrec 0 0 true 0).
Definition eb_force : field := (fun i => if Nat.eqb i 0 then - (4) else 0, fun _ => 0).
Definition eb_krylov : Z -> R -> field -> nat -> krylov (N:=RNum) field :=
  fun _ _ _ _ => MkKrylov (N:=RNum) field 1%Z 0 (fun i => if Nat.eqb i 0 then 0 else 7, fun i => if Nat.eqb i 0 then 2 else 7) true.
Definition eb_env (k : nat) : environment := MkEnv eb_krylov eb_krylov (fun _ => MkKrylov (N:=RNum) field 0%Z 0 field_zero false) (fun _ => 0) eb_force.
Lemma eb_x1 : let x1 := r_sol (run_h eb_h (eb_env) 1 eb_s0) in
  fst x1 0%nat = 0 /\ fst x1 1%nat = 0 /\ fst x1 2%nat = 0 /\ snd x1 0%nat = 2 /\ snd x1 1%nat = 2.
Proof.
  intros x1. set (upd := (fun i => if Nat.eqb i 0 then 0 else 7, fun i => if Nat.eqb i 0 then 2 else 7) : field).
  assert (G : exists g : field, x1 = field_add g (distribute_update_h eb_h upd) /\ fst g 0%nat = 0 /\ fst g 1%nat = 0 /\ fst g 2%nat = 0 /\ snd g 0%nat = 0 /\ snd g 1%nat = 0).
  { eexists. unfold x1. clear x1. cbn [run_h]. unfold advance_time_step_h, evaluate_time_step, solve_nonlinear_system. cbn [fst r_sol r_solution eb_s0].
    unfold shift_pressure_h. change (pb_fix (h_pb eb_h)) with false. cbv iota.
    change (Z.to_nat (fp_max_nl_iteration (pb_fp (h_pb eb_h)))) with 1%nat. cbn [nl_loop]. cbv zeta.
    assert (U : forall tol call, l_update field (solve_system field field_zero (oracles_h eb_h (eb_env 0) (init_time_advance_h eb_h eb_s0)) (en_fp (/ 2)) tol call)
              = distribute_update_h eb_h upd) by reflexivity.
    split.
    - change (fp_linearization (pb_fp (h_pb eb_h))) with coupled_implicit_picard. cbn [is_implicit negb].
      destruct (nltb _ _); cbn [ls_solution]; apply (f_equal (field_add _)); exact (U _ _).
    - cbn [ls_solution init_time_advance_h r_sol fst snd eb_s0 r_clock]. unfold apply_boundary_conditions_u, distribute. cbn. unfold extrapolate. cbn.
      rewrite ?Rmult_0_l. repeat split; rnum; unfold Q2R; cbn; try lra. }
  destruct G as (g & -> & G0 & G1 & G2 & G3 & G4). cbn. rewrite G0, G1, G2, G3, G4. repeat split; lra.
Qed.
Lemma eb_conforming u : conforming eb_h u -> u 1%nat = 0 /\ u 2%nat = u 0%nat / 2.
Proof. exact (eh_conforming u). Qed.
Lemma eb_is_container : container_h eb_h 1.
Proof.
  constructor.
  - split; [lra|]. intros s [<-|[<-|[]]]; reflexivity.
  - split; [cbn; lra|]. intros s [<-|[<-|[]]]; cbn; lra.
  - intros time i Hn Hd. destruct i as [|[|[|i]]]; [discriminate Hd| |discriminate Hd|discriminate Hd]. split.
    + exists (MkBFace 5%nat [(1%nat, tt, 0%nat)]). split; [left; reflexivity|]. exists (fun _ _ => 0), tt, 0%nat. split; [reflexivity|]. split; [left; reflexivity|reflexivity].
    + intros f v [<-|[]] (g & y & k & E & Hin & ->). cbn in E. inversion E; subst g. reflexivity.
  - intros f [].
  - intros a u Ha Hu. destruct (eb_conforming a Ha) as [A1 A2]. destruct (eb_conforming u Hu) as [U1 U2].
    unfold speed2, divergence_at, velocity_at, gradient_at. cbn. rewrite A1, U1, A2, U2. field.
  - intros m u H; discriminate H.
  - intros m H; discriminate H.
  - reflexivity.
Qed.
Lemma eb_admissible v : admissible eb_h (fun i => if Nat.eqb i 0 then v else if Nat.eqb i 2 then v / 2 else 0) (fun _ => 0).
Proof.
  split; [|split].
  - intros [|[|[|i]]] l Hl; cbn in Hl; [discriminate Hl|injection Hl as <-; reflexivity|injection Hl as <-; cbn; lra|discriminate Hl].
  - exact eh_pressure.
  - intros m [Hm|Hm]; discriminate Hm.
Qed.
Lemma eb_power (x : field) V (Q : vec) v : fst x 0%nat = 0 -> fst x 1%nat = 0 -> fst x 2%nat = 0 -> snd x 0%nat = 2 -> snd x 1%nat = 2 ->
  V 0%nat = v -> V 1%nat = 0 -> V 2%nat = v / 2 -> Q 0%nat = 0 -> Q 1%nat = 0 ->
  let c := next (ts_init ex_p) in
  virtual_power eb_h (now c) (weighted eb_pb c (fst x) (fst (r_sol eb_s0)) (fun _ => 0)) (convective_with eb_pb (convecting c (fst (r_sol eb_s0)) (fun _ => 0)) (fst x)) eb_force x V Q = 0.
Proof.
  intros X0 X1 X2 X3 X4 V0 V1 V2 Q0 Q1 c. destruct en_weights as (W0 & W1 & W2). fold c in W0, W1, W2.
  unfold virtual_power, external_power, inner_power, volume_defect. change (h_pb eb_h) with eb_pb. change (pb_sites eb_pb) with [eb_site1; eb_site2].
  change (pb_ofaces eb_pb) with (@nil (oface unit)). change (pb_dim eb_pb) with 2%nat. change (pb_nu eb_pb) with 3%nat. change (pb_np eb_pb) with 2%nat. cbn [suml sumn].
  unfold convective_with. change (fp_linearization (pb_fp eb_pb)) with coupled_implicit_picard. cbv iota. unfold weighted, transport. rewrite W0, W1, W2.
  unfold divergence_at, pressure_at, sym. change (fp_beta (pb_fp eb_pb)) with (/ 2). change (pb_dim eb_pb) with 2%nat. change (pb_np eb_pb) with 2%nat. cbn [sumn].
  unfold velocity_at, gradient_at. change (pb_nu eb_pb) with 3%nat. cbn [sumn]. cbn. rewrite X0, X1, X2, X3, X4, V0, V1, V2, Q0, Q1. field.
Qed.
Lemma eb_report : report_h eb_h (eb_env) 0 eb_s0 <> (0, 0)%Z.
Proof.
  set (s1 := init_time_advance_h eb_h eb_s0). set (x1 := r_sol (run_h eb_h (eb_env) 1 eb_s0)). destruct eh_closed_range as (_ & _ & Rg).
  destruct eb_x1 as (X0 & X1 & X2 & X3 & X4). fold x1 in X0, X1, X2, X3, X4.
  assert (Small : compute_residual_h eb_h (r_clock s1) (e_user (eb_env 0)) (r_old s1) (r_oo s1) x1 < / 1000000).
  { assert (Ht : tau1 (r_clock s1) = 1) by (cbn; unfold Q2R; cbn; lra).
    set (r := system_rhs_h eb_h (r_clock s1) (e_user (eb_env 0)) (r_old s1) (r_oo s1) x1).
    assert (T := residual_tested eb_h (r_clock s1) (e_user (eb_env 0)) (r_old s1) (r_oo s1) x1 _ _ Ht eq_refl eq_refl Rg (eb_admissible (fst r 0%nat))).
    cbv zeta in T. fold r in T.
    assert (T2 := eq_trans T (eb_power x1 (fun i => if Nat.eqb i 0 then fst r 0%nat else if Nat.eqb i 2 then fst r 0%nat / 2 else 0) (fun _ => 0) (fst r 0%nat) X0 X1 X2 X3 X4 eq_refl eq_refl eq_refl eq_refl eq_refl)).
    clear T. rename T2 into T. change (pb_nu (h_pb eb_h)) with 3%nat in T. change (pb_np (h_pb eb_h)) with 2%nat in T. cbn [sumn Nat.eqb] in T.
    assert (K0 : forall tm g, const_rhs_h eb_h tm g = 0) by (intros tm g; unfold const_rhs_h, const_rhs; cbn; ring).
    assert (R1 : fst r 1%nat = 0). { cbn -[cell_terms const_rhs_h]. rewrite K0. lra. }
    assert (R2 : fst r 2%nat = 0). { cbn -[cell_terms const_rhs_h]. rewrite K0. lra. }
    assert (P : forall i, snd r i = 0).
    { intros i. unfold r, system_rhs_h. cbn [snd]. unfold average_projection. change (pb_m0 (h_pb eb_h)) with (@None mode). change (pb_m1 (h_pb eb_h)) with (@None mode).
      assert (K : forall j, condense (pb_np (h_pb eb_h)) (h_p eb_h) (snd (cell_terms eb_h (r_clock s1) (r_old s1) (r_oo s1) x1)) j = 0).
      { intros j. 
        assert (K : forall k, snd (cell_terms eb_h (r_clock s1) (r_old s1) (r_oo s1) x1) k = 0).
        { intros k. unfold cell_terms. destruct (system_rhs_form (without_constraints (h_pb eb_h)) (r_clock s1) field_zero (r_old s1) (r_oo s1) x1 Ht eq_refl eq_refl) as [_ B]. rewrite B.
          unfold without_means. cbn [without_constraints pb_m0 pb_m1 without_mean]. unfold continuity_defect, divergence_at, gradient_at.
          change (pb_sites (without_constraints (h_pb eb_h))) with [eb_site1; eb_site2]. change (pb_dim (without_constraints (h_pb eb_h))) with 2%nat. change (pb_nu (without_constraints (h_pb eb_h))) with 3%nat.
          cbn [pb_con_p suml sumn]. rewrite X0, X1, X2. cbn. field. }
        unfold condense. apply sumn_zero. intros k _. apply suml_zero. intros mw _. destruct (Nat.eqb (fst mw) j); [|reflexivity]. rewrite K. ring. }
      destruct (_ && _); cbn [project_mode]; rewrite K; cbn; ring. }
    unfold compute_residual_h. rewrite norm_of_parts. fold r. change (pb_nu (h_pb eb_h)) with 3%nat. change (pb_np (h_pb eb_h)) with 2%nat. cbn [sumn].
    rewrite R1, R2, !P in *. set (a := fst r 0%nat) in *. clearbody a. clear - T.
    assert (Ha : a = 0) by nra. subst a. match goal with |- sqrt ?e < _ => replace e with 0 by ring end. rewrite sqrt_0. lra. }
  unfold report_h, advance_time_step_h, evaluate_time_step, solve_nonlinear_system. cbn [snd r_outcome run_h]. fold s1.
  match goal with |- context [nl_loop field field_add field_zero ?n ?o ?f ?q ?k ?l] =>
    destruct (loop_implicit field_add field_zero o f q k eq_refl n l ltac:(cbn; lia)) as [A B]; set (s2 := nl_loop field field_add field_zero n o f q k l) in * end.
  assert (Ex : ls_solution field s2 = x1).
  { unfold x1. cbn [run_h]. unfold advance_time_step_h, evaluate_time_step, solve_nonlinear_system. cbn [fst r_sol r_solution]. fold s1. unfold shift_pressure_h.
    change (pb_fix (h_pb eb_h)) with false. cbv iota. reflexivity. }
  cbn [oracles_h o_residual] in A. rewrite Ex in A. rewrite <- A in Small.
  change (nltb (n:=RNum) (ls_res field s2) (fp_tol_nl_iteration (pb_fp (h_pb eb_h)))) with (Rltb (ls_res field s2) (/ 1000000)) in B.
  destruct (Rltb_spec (ls_res field s2) (/ 1000000)) as [_|Q]; [|exfalso; apply Q, Small].
  cbn [ls_step] in B. change (Z.to_nat (fp_max_nl_iteration (pb_fp (h_pb eb_h)))) with 1%nat in B. change (fp_max_nl_iteration (pb_fp (h_pb eb_h))) with 1%Z.
  assert (E : ls_step field s2 = 0%Z) by lia. rewrite E. cbn. discriminate.
Qed.
(** the hypotheses of C118_constrained_euler_step, _run and _rest_euler hold with a force that is not zero; the fluid stays at rest *)
Example C118_constrained_nonvacuous :
  balanced_run_h eb_h 1 eb_env eb_s0 ex_p (fun _ _ => 2) /\ tp_scheme ex_p = implicit_euler /\ succeeded_h eb_h eb_env eb_s0 1 /\
  (forall j, (j < 1)%nat -> at_end (r_clock (run_h eb_h eb_env j eb_s0)) = false) /\
  energy_h eb_h eb_env eb_s0 0 = 0 /\ energy_h eb_h eb_env eb_s0 1 = 0 /\ fst (e_user (eb_env 0)) 0%nat = - (4) /\ snd (r_sol (run_h eb_h eb_env 1 eb_s0)) 1%nat = 2.
Proof.
  destruct eb_x1 as (X0 & X1 & X2 & _ & X4).
  split; [|split; [reflexivity|split; [exact eb_report|split; [intros j H; replace j with 0%nat by lia; reflexivity|]]]].
  - constructor.
    + constructor; try reflexivity.
      * exact eb_is_container.
      * unfold well_posed; cbn; rnum; lra.
      * right; left; reflexivity.
      * split; reflexivity.
      * exact eh_closed_range.
      * intros [|[|[|i]]] l Hl; cbn in Hl; [discriminate Hl|injection Hl as <-; reflexivity|injection Hl as <-; cbn; lra|discriminate Hl].
      * split; exact eh_pressure.
    + intros k. split; [|split; [reflexivity|]].
      * intros v Hv. destruct (eb_conforming v Hv) as [V1 V2]. change (pb_nu (h_pb eb_h)) with 3%nat. change (pb_sites (h_pb eb_h)) with [eb_site1; eb_site2].
        unfold pressure_at, divergence_at, gradient_at. change (pb_np (h_pb eb_h)) with 2%nat. change (pb_dim (h_pb eb_h)) with 2%nat. change (pb_nu (h_pb eb_h)) with 3%nat. cbn. rewrite V1, V2. field.
      * intros i l. cbn. unfold eh_lines_p. destruct (Nat.eqb i 1); [|discriminate]. intros [= <-]. cbn. ring.
  - unfold energy_h. split; [|split; [|split; [reflexivity|exact X4]]].
    + unfold kinetic_energy, energy_of, speed2, velocity_at. cbn. field.
    + set (v := fst (r_sol (run_h eb_h eb_env 1 eb_s0))) in *. clearbody v. unfold kinetic_energy, energy_of, speed2, velocity_at. cbn. rewrite X0, X1, X2. field.
Qed.
Print Assumptions C118_constrained_euler_step.
Print Assumptions C118_constrained_bdf_step.
Print Assumptions C118_constrained_euler_run.
Print Assumptions C118_constrained_bdf_run.
Print Assumptions C118_constrained_rest_euler.
Print Assumptions C118_constrained_rest_bdf.
Print Assumptions C118_constrained_nonvacuous.
