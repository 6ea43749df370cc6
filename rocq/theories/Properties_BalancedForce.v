(** * C118: a force that is the gradient of a discrete pressure drives no flow *)
From Coq Require Import String Reals List Bool Arith ZArith Lra Lia.
From Verif Require Import Num SumR Model_Parameters Model_TimeStepping Spec_TimeStepping Proofs_TimeStepping Proofs_TimeStepping2.
From Verif Require Import Model_NonlinearSolver Properties_NonlinearSolver Model_NSOperator Model_BoundaryValues Properties_BoundaryValues Model_Run Properties_Run Properties_Energy.
Import ListNotations.
Open Scope R_scope.

(** ** Specification *)
Section Spec.
Context {point : Type}.
Variable pb : problem point.
(** the user's force is - (P, div v) for every test function v that vanishes on the walls, with a pressure P of the pressure space: the weak
    form of grad P *)
Definition gradient_force (F : field) (P : vec) : Prop :=
  (forall i, (i < pb_nu pb)%nat -> dirichlet_dof pb i = false ->
     fst F i = - suml (pb_sites pb) (fun s => st_JxW s * (pressure_at pb P s * test_divergence pb s i))) /\
  snd F = fun _ => 0.
(** velocity, and pressure relative to P *)
Definition relative (x : field) (P : vec) : field := (fst x, fun i => snd x i - P i).
End Spec.

Section Shift.
Context {point : Type}.
Variable pb : problem point.
Lemma relative_momentum time dudt conv (F x : field) (P : vec) i : gradient_force pb F P -> (i < pb_nu pb)%nat -> dirichlet_dof pb i = false ->
  momentum_defect pb time dudt conv (fst F) x i = momentum_defect pb time dudt conv (fun _ => 0) (relative x P) i.
Proof.
  intros [HF _] Hi Hd. unfold momentum_defect, relative. cbn [fst snd]. rewrite (HF i Hi Hd).
  assert (E : forall s, pressure_at pb (fun j => snd x j - P j) s = pressure_at pb (snd x) s - pressure_at pb P s).
  { intros s. unfold pressure_at. rewrite <- sumn_minus. apply sumn_ext. intros. ring. }
  match goal with |- ?a - ?l - suml _ ?f = 0 - ?l' - suml _ ?g => assert (K : suml (pb_sites pb) g = suml (pb_sites pb) f + suml (pb_sites pb) (fun s => st_JxW s * (pressure_at pb P s * test_divergence pb s i))) end.
  { rewrite <- suml_plus. apply suml_ext. intros s _. rewrite E. ring. }
  rewrite K. ring.
Qed.
Lemma relative_continuity (x : field) (P : vec) (S : vec) : continuity_defect pb S (relative x P) = continuity_defect pb S x.
Proof. reflexivity. Qed.
Lemma relative_norm time dudt conv (F x : field) (P : vec) : gradient_force pb F P ->
  free_defect_norm pb time dudt conv field_zero (relative x P) = free_defect_norm pb time dudt conv F x.
Proof.
  intros H. unfold free_defect_norm. f_equal. f_equal.
  - apply sumn_ext. intros i Hi. destruct (dirichlet_dof pb i) eqn:D; [reflexivity|]. f_equal. symmetry. apply relative_momentum; assumption.
  - rewrite (proj2 H). reflexivity.
Qed.
Lemma free_norm_le time dudt conv (F x : field) : free_defect_norm pb time dudt conv F x <= defect_norm pb time dudt conv F x.
Proof.
  unfold free_defect_norm, defect_norm. apply sqrt_le_1_alt. apply Rplus_le_compat_r. apply sumn_le. intros i _.
  destruct (dirichlet_dof pb i); [apply pow2_ge_0|lra].
Qed.
End Shift.

(** ** The run *)
Section Run.
Context {point : Type}.
Variable pb : problem point.
Variable r : R.
Variable env : nat -> environment.
Variable s0 : state.
Variable p : ts_params RNum.
Variable P : nat -> vec.
Notation x := (fun k => r_sol (run_steps pb env k s0)).
Notation t := (fun k => now (r_clock (run_steps pb env k s0))).
Notation u k := (velocity_at pb (fst (r_sol (run_steps pb env k s0)))).

(** as enclosed_run (C110), but the force of step [k] is the gradient of the discrete pressure [P k] *)
Record balanced_run : Prop := {
  br_container : container pb r;
  br_start : r_clock s0 = ts_init p;
  br_time : well_posed p;
  br_type : fp_physical_type (pb_fp pb) = incompressible;
  br_skew : fp_beta (pb_fp pb) = / 2;
  br_formulation : In (fp_linearization (pb_fp pb)) [coupled_implicit_newton; coupled_implicit_picard; coupled_velocity_semi_implicit];
  br_iterations : (0 < fp_max_nl_iteration (pb_fp pb) < 4294967296)%Z;
  br_force : forall k, gradient_force pb (e_user (env k)) (P (S k));
  br_walls : at_rest_on_walls pb (fst (r_sol s0)) }.
Hypothesis BR : balanced_run.
Let CT := br_container BR.
(** the same problem without force, to use the lemmas of C110 *)
Let quiet : nat -> environment := fun k => MkEnv (e_cheap (env k)) (e_strong (env k)) (e_projection (env k)) (e_shift (env k)) field_zero.
Lemma quiet_run : enclosed_run pb r quiet s0 p.
Proof. destruct BR. constructor; try assumption. reflexivity. Qed.
Notation energy_nonneg := (energy_nonneg pb r quiet s0 p quiet_run).
Notation dissipation_nonneg := (dissipation_nonneg pb r quiet s0 p quiet_run).
Notation force_free := (force_free pb r quiet s0 p quiet_run).
Notation succeeded := (succeeded pb env s0).
Notation tolerance := (tolerance pb).
Notation step_length := (step_length pb env s0).
Notation energy := (energy pb env s0).
Notation dissipated := (dissipated pb env s0).
Notation bdf_energy := (bdf_energy pb env s0).
Lemma rest k : at_rest_on_walls pb (fst (x k)).
Proof.
  destruct k as [|k]; [exact (br_walls BR)|]. intros i Hi D. cbn [run_steps]. apply (boundary_step pb (env k) (run_steps pb env k s0)).
  - destruct (br_formulation BR) as [<-|[<-|[<-|[]]]]; reflexivity.
  - apply (ct_walls _ _ CT); assumption.
Qed.
Lemma rest_predicted k : at_rest_on_walls pb (predicted k t x).
Proof. intros i Hi D. unfold predicted. rewrite !rest by assumption. destruct (3 <=? k)%nat; ring. Qed.

(** one step: the energy gained is bounded by the work of the residual *)
Lemma step_work k : (tp_scheme p = bdf_2 \/ tp_scheme p = implicit_euler) -> (1 <= k)%nat ->
  (forall j, (j < k)%nat -> at_end (r_clock (run_steps pb env j s0)) = false) -> succeeded k ->
  t (k - 1)%nat < t k /\ 0 <= tolerance /\
  exists delta, Rabs delta <= / 1000000000000 /\
   suml (pb_sites pb) (fun s => st_JxW s * (st_rho s * sumn (pb_dim pb) (fun d => derivative pb (tp_scheme p) k t x delta s d * u k s d))) + dissipation pb (fst (x k))
   <= tolerance * size pb (relative (x k) (P k)).
Proof.
  intros Hs Hk Hj Hok. destruct k as [|k]; [lia|]. replace (S k - 1)%nat with k in * by lia. clear Hk.
  assert (Ec : forall k, r_clock (run_steps pb env k s0) = next_n k (ts_init p)) by (intros j; rewrite clock_run, (br_start BR); reflexivity).
  assert (Hj2 : forall j, (j < S k)%nat -> at_end (next_n j (ts_init p)) = false) by (intros j L; rewrite <- Ec; apply Hj, L).
  assert (W := br_time BR). split; [rewrite !Ec; apply times_increase; assumption|].
  cut (exists delta, Rabs delta <= / 1000000000000 /\ exists a, at_rest_on_walls pb a /\
    free_defect_norm pb (t (S k)) (derivative pb (tp_scheme p) (S k) t x delta) (transport pb a (fst (x (S k)))) field_zero (relative (x (S k)) (P (S k))) <= tolerance).
  { intros (delta & Hd & a & Ha & L). split; [apply Rle_trans with (2 := L), sqrt_pos|]. exists delta. split; [exact Hd|].
    apply Rle_trans with (1 := work pb r CT (t (S k)) (derivative pb (tp_scheme p) (S k) t x delta) a (relative (x (S k)) (P (S k))) (br_skew BR) Ha (rest (S k))).
    apply Rmult_le_compat_r; [apply sqrt_pos|exact L]. }
  assert (Lin : is_implicit (fp_linearization (pb_fp pb)) = true \/ (Z.of_nat k < 4294967296)%Z).
  { unfold succeeded in Hok. destruct (br_formulation BR) as [E|[E|[E|[]]]]; rewrite <- E in *; [left; reflexivity..|right; lia]. }
  destruct (step_terms pb env s0 p k (br_start BR) W Hs Hj2 Lin) as (Ht1 & delta & Hd & E). exists delta. split; [exact Hd|].
  destruct (E _ eq_refl) as [E1 E2]. clear E.
  set (conv := convective pb (S k) t x) in *.
  assert (Hconv : exists a, at_rest_on_walls pb a /\ conv = transport pb a (fst (x (S k)))).
  { unfold conv, convective. destruct (br_formulation BR) as [E|[E|[E|[]]]]; rewrite <- E.
    - exists (fst (x (S k))). split; [apply rest|reflexivity].
    - exists (fst (x (S k))). split; [apply rest|reflexivity].
    - exists (predicted (S k) t x). split; [apply rest_predicted|reflexivity]. }
  destruct Hconv as (a & Ha & Hconv). exists a. split; [exact Ha|]. rewrite <- Hconv, <- E1, <- E2.
  assert (Z : forall k, snd (e_user (env k)) = fun _ => 0) by (intros j; exact (proj2 (br_force BR j))).
  unfold tolerance. unfold succeeded in Hok. replace (S k - 1)%nat with k in Hok by lia.
  rewrite (relative_norm pb _ _ _ _ (x (S k)) (P (S k)) (br_force BR k)).
  destruct (br_formulation BR) as [F|[F|[F|[]]]]; rewrite <- F in *.
  - apply Rle_trans with (1 := free_norm_le pb _ _ _ _ _). left.
    apply (implicit_step pb (env k) (run_steps pb env k s0)); try assumption; [rewrite <- F; reflexivity|exact (br_type BR)|exact (br_iterations BR)|exact force_free].
  - apply Rle_trans with (1 := free_norm_le pb _ _ _ _ _). left.
    apply (implicit_step pb (env k) (run_steps pb env k s0)); try assumption; [rewrite <- F; reflexivity|exact (br_type BR)|exact (br_iterations BR)|exact force_free].
  - apply (linear_step pb (env k) (run_steps pb env k s0)); try assumption; [rewrite <- F; reflexivity|exact (br_type BR)|exact (proj1 (br_iterations BR))|exact force_free|exact (ct_pressure _ _ CT)|exact (proj2 Hok)].
Qed.

(** what the tolerance of the solver allows: the pressure counts relative to [P k] *)
Definition slack (k : nat) : R := step_length k * (tolerance * size pb (relative (x k) (P k))).

(** Implicit Euler, any step sizes *)
Theorem C118_euler_step k : tp_scheme p = implicit_euler -> (1 <= k)%nat ->
  (forall j, (j < k)%nat -> at_end (r_clock (run_steps pb env j s0)) = false) -> succeeded k ->
  (1 - 2 / 1000000000000) * energy k + energy_of pb (minus_field (u k) (u (k - 1)%nat)) + dissipated k <= energy (k - 1) + slack k.
Proof.
  intros Hs Hk Hj Hok. destruct (step_work k (or_intror Hs) Hk Hj Hok) as (Inc & _ & delta & Hd & Hw).
  unfold Properties_Energy.energy, kinetic_energy, Properties_Energy.dissipated, slack, Properties_Energy.step_length.
  set (h := t k - t (k - 1)%nat) in *. assert (Hh : 0 < h) by (unfold h; lra).
  rewrite (suml_ext _ _ (fun s => st_JxW s * (st_rho s * sumn (pb_dim pb) (fun d => ((u k s d - u (k - 1)%nat s d) / h + delta / h * u k s d) * u k s d)))) in Hw.
  2: { intros s _. f_equal. f_equal. apply sumn_ext. intros d _. f_equal. unfold derivative, difference, lead, three_levels. rewrite Hs. cbn [scheme_eqb andb].
       fold h. field. lra. }
  rewrite euler_identity in Hw by lra.
  assert (Hd1 := Rle_abs (- delta)). rewrite Rabs_Ropp in Hd1. assert (E0 := energy_nonneg (u k)).
  set (A := energy_of pb (u k)) in *. set (B := energy_of pb (u (k - 1)%nat)) in *. set (C := energy_of pb (minus_field (u k) (u (k - 1)%nat))) in *.
  set (D := dissipation pb _) in *. set (T := tolerance * _) in *. clearbody A B C D T h. clear - Hh Hw Hd Hd1 E0.
  apply Rmult_le_compat_l with (r := h) in Hw; [|lra]. replace (h * ((A - B + C) / h + 2 * (delta / h) * A + D)) with (A - B + C + 2 * (delta * A) + h * D) in Hw by (field; lra).
  assert (- delta * A <= / 1000000000000 * A) by (apply Rmult_le_compat_r; lra). lra.
Qed.
(** The energy norm of BDF-2: half the energy of u_k and half the energy of 2 u_k - u_(k-1) *)
Theorem C118_bdf_step k : tp_scheme p = bdf_2 -> (2 <= k)%nat ->
  (forall j, (j < k)%nat -> at_end (r_clock (run_steps pb env j s0)) = false) -> succeeded k -> step_length k = step_length (k - 1) ->
  bdf_energy k + energy_of pb (bend (u k) (u (k - 1)%nat) (u (k - 2)%nat)) / 2 + dissipated k
  <= bdf_energy (k - 1) + slack k + 3 / 1000000000000 * energy k.
Proof.
  intros Hs Hk Hj Hok He. destruct (step_work k (or_introl Hs) ltac:(lia) Hj Hok) as (Inc & _ & delta & Hd & Hw).
  unfold Properties_Energy.bdf_energy, Properties_Energy.energy, kinetic_energy, Properties_Energy.dissipated, slack. replace (k - 1 - 1)%nat with (k - 2)%nat by lia.
  unfold Properties_Energy.step_length in *. replace (k - 1 - 1)%nat with (k - 2)%nat in He by lia.
  set (h := t k - t (k - 1)%nat) in *. assert (Hh : 0 < h) by (unfold h; lra).
  rewrite (suml_ext _ _ (fun s => st_JxW s * (st_rho s * sumn (pb_dim pb) (fun d => ((3 * u k s d - 4 * u (k - 1)%nat s d + u (k - 2)%nat s d) / (2 * h) + 3 / 2 * delta / h * u k s d) * u k s d)))) in Hw.
  2: { intros s _. f_equal. f_equal. apply sumn_ext. intros d _. f_equal. unfold derivative, difference, lead, three_levels. rewrite Hs. cbn [scheme_eqb andb].
       destruct (Nat.leb_spec 2 k) as [_|?]; [|lia]. fold h.
       replace (t k - t (k - 2)%nat) with (2 * h) by (unfold h in *; lra). replace (t (k - 1)%nat - t (k - 2)%nat) with h by lra.
       replace (t (k - 1)%nat - t k) with (- h) by (unfold h; ring). replace (t (k - 2)%nat - t (k - 1)%nat) with (- h) by lra. replace (t (k - 2)%nat - t k) with (- (2 * h)) by (unfold h in *; lra).
       field. lra. }
  rewrite bdf_identity in Hw by lra.
  assert (Hd1 := Rle_abs (- delta)). rewrite Rabs_Ropp in Hd1. assert (E0 := energy_nonneg (u k)).
  set (A := energy_of pb (u k)) in *. set (A2 := energy_of pb (ahead (u k) (u (k - 1)%nat))) in *.
  set (B := energy_of pb (u (k - 1)%nat)) in *. set (B2 := energy_of pb (ahead (u (k - 1)%nat) (u (k - 2)%nat))) in *. set (C := energy_of pb (bend _ _ _)) in *.
  set (D := dissipation pb _) in *. set (T := tolerance * _) in *. clearbody A A2 B B2 C D T h. clear - Hh Hw Hd Hd1 E0.
  apply Rmult_le_compat_l with (r := h) in Hw; [|lra].
  replace (h * (((A + A2) / 2 - (B + B2) / 2 + C / 2) / h + 2 * (3 / 2 * delta / h) * A + D)) with ((A + A2) / 2 - (B + B2) / 2 + C / 2 + 3 * (delta * A) + h * D) in Hw by (field; lra).
  assert (- delta * A <= / 1000000000000 * A) by (apply Rmult_le_compat_r; lra). lra.
Qed.
(** the first step of BDF-2 is a step of implicit Euler *)
Lemma bdf_first_step : tp_scheme p = bdf_2 -> at_end (r_clock s0) = false -> succeeded 1 ->
  (1 - 6 / 1000000000000) * bdf_energy 1 + dissipated 1 <= energy 0 + 3 / 2 * slack 1.
Proof.
  intros Hs Hj Hok.
  assert (Hj2 : forall j, (j < 1)%nat -> at_end (r_clock (run_steps pb env j s0)) = false) by (intros j L; replace j with 0%nat by lia; exact Hj).
  destruct (step_work 1 (or_introl Hs) ltac:(lia) Hj2 Hok) as (Inc & Ht & delta & Hd & Hw).
  unfold Properties_Energy.bdf_energy. change (1 - 1)%nat with 0%nat in *. rewrite start_identity. unfold Properties_Energy.energy, kinetic_energy, Properties_Energy.dissipated, slack, Properties_Energy.step_length. change (1 - 1)%nat with 0%nat.
  set (h := t 1%nat - t 0%nat) in *. assert (Hh : 0 < h) by (unfold h; lra).
  rewrite (suml_ext _ _ (fun s => st_JxW s * (st_rho s * sumn (pb_dim pb) (fun d => ((u 1%nat s d - u 0%nat s d) / h + delta / h * u 1%nat s d) * u 1%nat s d)))) in Hw.
  2: { intros s _. f_equal. f_equal. apply sumn_ext. intros d _. f_equal. unfold derivative, difference, lead, three_levels. rewrite Hs. cbn [scheme_eqb andb Nat.leb].
       change (1 - 1)%nat with 0%nat. fold h. field. lra. }
  rewrite euler_identity in Hw by lra.
  assert (Hd1 := Rle_abs (- delta)). rewrite Rabs_Ropp in Hd1. assert (E0 := energy_nonneg (u 1%nat)). assert (E1 := energy_nonneg (minus_field (u 1%nat) (u 0%nat))).
  assert (E2 := dissipation_nonneg (fst (x 1%nat))). assert (E3 := energy_nonneg (ahead (u 1%nat) (u 0%nat))). rewrite start_identity in E3.
  set (A := energy_of pb (u 1%nat)) in *. set (B := energy_of pb (u 0%nat)) in *. set (C := energy_of pb (minus_field _ _)) in *.
  set (D := dissipation pb _) in *. set (T := tolerance * _) in *. clearbody A B C D T h. clear - Hh Hw Hd Hd1 E0 E1 E2 E3.
  apply Rmult_le_compat_l with (r := h) in Hw; [|lra]. replace (h * ((A - B + C) / h + 2 * (delta / h) * A + D)) with (A - B + C + 2 * (delta * A) + h * D) in Hw by (field; lra).
  assert (- delta * A <= / 1000000000000 * A) by (apply Rmult_le_compat_r; lra). assert (0 <= h * D) by (apply Rmult_le_pos; lra). lra.
Qed.
(** whole runs *)
Theorem C118_euler_run n : tp_scheme p = implicit_euler ->
  (forall j, (j < n)%nat -> at_end (r_clock (run_steps pb env j s0)) = false) -> (forall k, (1 <= k <= n)%nat -> succeeded k) ->
  (1 - 2 / 1000000000000) ^ n * (energy n + sumn n (fun k => dissipated (S k))) <= energy 0 + sumn n (fun k => slack (S k)).
Proof.
  intros Hs Hj Hok. apply accumulate; [lra|]. intros k Hk.
  destruct (step_work k (or_intror Hs) ltac:(lia) ltac:(intros; apply Hj; lia) (Hok k Hk)) as (Inc & Ht & _).
  assert (K := C118_euler_step k Hs ltac:(lia) ltac:(intros; apply Hj; lia) (Hok k Hk)). assert (E := energy_nonneg (minus_field (u k) (u (k - 1)%nat))).
  assert (S1 : 0 <= size pb (relative (x k) (P k))) by apply sqrt_pos.
  split; [apply Rmult_le_pos; [unfold Properties_Energy.step_length; lra|apply dissipation_nonneg]|]. split; [apply Rmult_le_pos; [unfold Properties_Energy.step_length; lra|apply Rmult_le_pos; assumption]|]. lra.
Qed.
Theorem C118_bdf_run n h : tp_scheme p = bdf_2 -> (1 <= n)%nat ->
  (forall j, (j < n)%nat -> at_end (r_clock (run_steps pb env j s0)) = false) -> (forall k, (1 <= k <= n)%nat -> succeeded k /\ step_length k = h) ->
  (1 - 6 / 1000000000000) ^ n * (energy n / 2 + sumn n (fun k => dissipated (S k))) <= energy 0 + 3 / 2 * sumn n (fun k => slack (S k)).
Proof.
  intros Hs Hn Hj Hok.
  assert (A := accumulate (1 - 6 / 1000000000000) (fun k => if Nat.eqb k 0 then energy 0 else bdf_energy k) dissipated (fun k => 3 / 2 * slack k) n).
  cbn beta in A. rewrite sumn_scal in A. cbn [Nat.eqb] in A. destruct (Nat.eqb_spec n 0) as [?|_]; [lia|].
  assert (Pf : 0 <= (1 - 6 / 1000000000000) ^ n) by (apply pow_le; lra).
  apply Rle_trans with ((1 - 6 / 1000000000000) ^ n * (bdf_energy n + sumn n (fun k => dissipated (S k)))).
  { apply Rmult_le_compat_l; [exact Pf|]. apply Rplus_le_compat_r. unfold Properties_Energy.bdf_energy. assert (E := energy_nonneg (ahead (u n) (u (n - 1)%nat))). lra. }
  apply A; [lra|]. clear A Pf. intros k Hk. destruct (Hok k Hk) as [Ok Hh].
  destruct (step_work k (or_introl Hs) ltac:(lia) ltac:(intros; apply Hj; lia) Ok) as (Inc & Ht & _).
  assert (S1 : 0 <= size pb (relative (x k) (P k))) by apply sqrt_pos.
  assert (S2 : 0 <= slack k) by (apply Rmult_le_pos; [unfold Properties_Energy.step_length; lra|apply Rmult_le_pos; assumption]).
  split; [apply Rmult_le_pos; [unfold Properties_Energy.step_length; lra|apply dissipation_nonneg]|]. split; [lra|].
  destruct (Nat.eqb_spec k 0) as [?|_]; [lia|]. destruct (Nat.eqb_spec (k - 1) 0) as [Z|Z].
  - replace k with 1%nat in * by lia. apply bdf_first_step; [exact Hs|apply (Hj 0%nat); lia|exact Ok].
  - assert (K := C118_bdf_step k Hs ltac:(lia) ltac:(intros; apply Hj; lia) Ok ltac:(rewrite Hh; symmetry; apply Hok; lia)).
    assert (E := energy_nonneg (bend (u k) (u (k - 1)%nat) (u (k - 2)%nat))). assert (E1 := energy_nonneg (ahead (u k) (u (k - 1)%nat))).
    assert (E2 := energy_nonneg (u k)). unfold Properties_Energy.bdf_energy in *. unfold Properties_Energy.energy, kinetic_energy in *. lra.
Qed.
(** A fluid that starts at rest: the kinetic energy at any later time is bounded by what the solver tolerance allows, however strong the force
    and however long the run *)
Theorem C118_rest_euler n : tp_scheme p = implicit_euler -> energy 0 = 0 ->
  (forall j, (j < n)%nat -> at_end (r_clock (run_steps pb env j s0)) = false) -> (forall k, (1 <= k <= n)%nat -> succeeded k) ->
  (1 - 2 / 1000000000000) ^ n * energy n <= sumn n (fun k => slack (S k)).
Proof.
  intros Hs H0 Hj Hok. assert (K := C118_euler_run n Hs Hj Hok). rewrite H0 in K.
  assert (F : 0 <= (1 - 2 / 1000000000000) ^ n) by (apply pow_le; lra).
  assert (D : 0 <= sumn n (fun k => dissipated (S k))).
  { apply sumn_nonneg. intros k Hk. destruct (step_work (S k) (or_intror Hs) ltac:(lia) ltac:(intros; apply Hj; lia) (Hok (S k) ltac:(lia))) as (Inc & _).
    apply Rmult_le_pos; [unfold Properties_Energy.step_length; lra|apply dissipation_nonneg]. }
  rewrite Rmult_plus_distr_l in K. assert (G := Rmult_le_pos _ _ F D). lra.
Qed.
Theorem C118_rest_bdf n h : tp_scheme p = bdf_2 -> energy 0 = 0 -> (1 <= n)%nat ->
  (forall j, (j < n)%nat -> at_end (r_clock (run_steps pb env j s0)) = false) -> (forall k, (1 <= k <= n)%nat -> succeeded k /\ step_length k = h) ->
  (1 - 6 / 1000000000000) ^ n * energy n <= 3 * sumn n (fun k => slack (S k)).
Proof.
  intros Hs H0 Hn Hj Hok. assert (K := C118_bdf_run n h Hs Hn Hj Hok). rewrite H0 in K.
  assert (F : 0 <= (1 - 6 / 1000000000000) ^ n) by (apply pow_le; lra).
  assert (D : 0 <= sumn n (fun k => dissipated (S k))).
  { apply sumn_nonneg. intros k Hk. destruct (step_work (S k) (or_introl Hs) ltac:(lia) ltac:(intros; apply Hj; lia) (proj1 (Hok (S k) ltac:(lia)))) as (Inc & _).
    apply Rmult_le_pos; [unfold Properties_Energy.step_length; lra|apply dissipation_nonneg]. }
  rewrite Rmult_plus_distr_l in K. assert (G := Rmult_le_pos _ _ F D). lra.
Qed.
End Run.
Print Assumptions C118_euler_run.
Print Assumptions C118_bdf_run.
Print Assumptions C118_rest_euler.
Print Assumptions C118_rest_bdf.

(** ** Surface tension with constant curvature *)
From Verif Require Import Model_Force Model_PressureInterpolation Properties_PressureInterpolation.
From Verif Require Properties_Force.
Section Drop.
Variables (simplex : bool) (kd : kind) (ls pe : element) (par : force_parameters) (kappa : R) (mesh : list mesh_cell).
(** the pressure of Laplace's law: surface tension times curvature times indicator in the nodes of the pressure, zero for the constants on the
    cells of FE_Q_DG0 *)
Definition entries (L : nat -> R) : list (nat * R) := flat_map (fun c : mesh_cell => map (fun j => (g_p (fst c) (order simplex pe j),
  if Nat.ltb j (n_nodes simplex kd pe) then fp_surface_tension par * kappa * Properties_PressureInterpolation.field ls L (fst c) (e_support pe (order simplex pe j)) else 0)) (seq 0 (e_n pe))) mesh.
Definition laplace_pressure (L : nat -> R) (a : nat) : R := match find (fun e => Nat.eqb (fst e) a) (entries L) with Some e => snd e | None => 0 end.
Lemma laplace_spec L : numbering (e_n ls) (e_lex ls) -> continuous simplex kd ls pe L mesh -> nodal simplex kd pe mesh ->
  fp_interpolate par = true -> fp_gravity par = 0 ->
  (forall c q, In c mesh -> (q < g_nq (fst c))%nat -> curvature_value (cell_of simplex kd ls pe L (fst c)) q = kappa) ->
  (forall c j, In c mesh -> (j < n_nodes simplex kd pe)%nat -> laplace_pressure L (g_p (fst c) (order simplex pe j)) =
     fp_surface_tension par * kappa * Properties_PressureInterpolation.field ls L (fst c) (e_support pe (order simplex pe j))) /\
  (forall c j, In c mesh -> (n_nodes simplex kd pe <= j < e_n pe)%nat -> laplace_pressure L (g_p (fst c) (order simplex pe j)) = 0) /\
  forall g d, user_rhs (okz_force par) (map (fun c => cell_of simplex kd ls pe L (fst c)) mesh) g d = weak_gradient simplex pe mesh (laplace_pressure L) g d.
Proof.
  intros HN HC HO HI HG HK. destruct (C106_balance simplex kd ls pe L par kappa mesh HN HC HO HI HG HK) as (P & P1 & P2 & P3).
  assert (NB : (n_nodes simplex kd pe <= e_n pe)%nat) by (unfold n_nodes; destruct simplex, kd; lia).
  assert (V : forall a v, In (a, v) (entries L) -> P a = v).
  { intros a v H. apply in_flat_map in H as (c & Ic & H). apply in_map_iff in H as (j & Ej & Ij). injection Ej as <- <-. apply in_seq in Ij.
    destruct (Nat.ltb_spec j (n_nodes simplex kd pe)); [apply P1; assumption|apply P2; [exact Ic|lia]]. }
  assert (E : forall c j, In c mesh -> (j < e_n pe)%nat -> laplace_pressure L (g_p (fst c) (order simplex pe j)) = P (g_p (fst c) (order simplex pe j))).
  { intros c j Ic Hj. unfold laplace_pressure. destruct (find _ _) as [[a v]|] eqn:F.
    - apply find_some in F as [F1 F2]. cbn [fst snd] in *. apply Nat.eqb_eq in F2. rewrite <- F2. symmetry. apply V, F1.
    - exfalso. eapply find_none in F; [|apply in_flat_map; exists c; split; [exact Ic|]; apply in_map_iff; exists j; split; [reflexivity|apply in_seq; lia]].
      cbn [fst] in F. rewrite Nat.eqb_refl in F. discriminate F. }
  split; [|split].
  - intros c j Ic Hj. rewrite E by (try assumption; lia). apply P1; assumption.
  - intros c j Ic Hj. rewrite E by (try assumption; lia). apply P2; assumption.
  - intros g d. rewrite P3. unfold weak_gradient. apply suml_ext. intros c Ic. apply sumn_ext. intros i _. destruct (Nat.eqb _ g); [|reflexivity].
    apply sumn_ext. intros q _. f_equal. f_equal. apply sumn_ext. intros j Hj. rewrite E by assumption. reflexivity.
Qed.
End Drop.
(** Level set solver with interpolate_grad_onto_pressure, two fluids of the same density in a container without gravity, an interface of
    constant curvature [kappa] (circle or sphere; the indicator [L k] may differ from step to step), velocity unknown [i] belonging to
    component [snd (node i)] of velocity node [fst (node i)].  If the quadrature formula integrates by parts exactly the products of continuous
    pressures and velocities that are zero on the walls, then the force is balanced by Laplace's pressure jump, so that C118_euler_run,
    C118_bdf_run and the theorems about a fluid at rest apply: no spurious flow but for the tolerance of the solvers. *)
Theorem C118_drop : forall {point} (pb : problem point) r env s0 p simplex kd ls pe par kappa mesh (L : nat -> nat -> R) (node : nat -> nat * nat),
  container pb r -> r_clock s0 = ts_init p -> well_posed p -> fp_physical_type (pb_fp pb) = incompressible -> Model_Parameters.fp_beta (pb_fp pb) = / 2 ->
  In (fp_linearization (pb_fp pb)) [coupled_implicit_newton; coupled_implicit_picard; coupled_velocity_semi_implicit] ->
  (0 < fp_max_nl_iteration (pb_fp pb) < 4294967296)%Z -> at_rest_on_walls pb (fst (r_sol s0)) ->
  numbering (e_n ls) (e_lex ls) -> nodal simplex kd pe mesh -> (forall k, continuous simplex kd ls pe (L k) mesh) ->
  fp_interpolate par = true -> fp_gravity par = 0 ->
  (forall k c q, In c mesh -> (q < g_nq (fst c))%nat -> curvature_value (cell_of simplex kd ls pe (L k) (fst c)) q = kappa) ->
  (forall k i, (i < pb_nu pb)%nat -> dirichlet_dof pb i = false ->
     fst (e_user (env k)) i = user_rhs (okz_force par) (map (fun c => cell_of simplex kd ls pe (L k) (fst c)) mesh) (fst (node i)) (snd (node i))) ->
  (forall k, snd (e_user (env k)) = fun _ => 0) ->
  (forall (P : nat -> R) i, (i < pb_nu pb)%nat -> dirichlet_dof pb i = false ->
     (forall c j, In c mesh -> (n_nodes simplex kd pe <= j < e_n pe)%nat -> P (g_p (fst c) (order simplex pe j)) = 0) ->
     weak_gradient simplex pe mesh P (fst (node i)) (snd (node i)) = - suml (pb_sites pb) (fun s => st_JxW s * (pressure_at pb P s * test_divergence pb s i))) ->
  let P k := laplace_pressure simplex kd ls pe par kappa mesh (L (k - 1)%nat) in
  balanced_run pb r env s0 p P /\
  forall k c j, In c mesh -> (j < n_nodes simplex kd pe)%nat -> P (S k) (g_p (fst c) (order simplex pe j)) =
    fp_surface_tension par * kappa * Properties_PressureInterpolation.field ls (L k) (fst c) (e_support pe (order simplex pe j)).
Proof.
  intros point pb r env s0 p simplex kd ls pe par kappa mesh L node H1 H2 H3 H4 H5 H6 H7 H8 HN HO HC HI HG HK HF HS HP P.
  assert (A := fun k => laplace_spec simplex kd ls pe par kappa mesh (L k) HN (HC k) HO HI HG (HK k)). split.
  - constructor; try assumption. intros k. unfold P. replace (S k - 1)%nat with k by lia. destruct (A k) as (_ & A2 & A3). split; [|apply HS].
    intros i Hi Hd. rewrite HF, A3 by assumption. apply HP; assumption.
  - intros k c j Ic Hj. unfold P. replace (S k - 1)%nat with k by lia. apply A; assumption.
Qed.
Print Assumptions C118_drop.

(** ** Example: the unit interval with quadratic velocity (middle, left end, right end), linear pressure (left, right) and Simpson's rule; the
    indicator is -1 on the left and 1 on the right.  The solver finds the pressure jump and the fluid stays at rest. *)
Definition bf_fp : flow_params RNum :=
  MkFP (N:=RNum) 1 0 0 false false incompressible (/ 2) 2 false 1 1 0 0 1 (/ 1000000) coupled_implicit_picard 1 (/ 1000000) false u_ilu p_mass_diag 1 String.EmptyString 0 1 0 false false
    implicit_euler 0 1 1 0 0 0 1 1 0 0 0 0 1 1 0 false 1 0 false false false false false 0 0 false.
Definition bf_site (q : nat) : site :=
  MkSite (nth q [1 / 6; 4 / 6; 1 / 6] 0) (fun i d => nth i [nth q [0; 1; 0] 0; nth q [1; 0; 0] 0; nth q [0; 0; 1] 0] 0)
    (fun i d e => nth i [nth q [4; 0; - (4)] 0; nth q [- (3); - (1); 1] 0; nth q [- (1); 1; 3] 0] 0)
    (fun j => nth j [nth q [1; 1 / 2; 0] 0; nth q [0; 1 / 2; 1] 0] 0) 1 1 0.
Definition bf_pb : problem unit :=
  MkProblem bf_fp 1 3 2 [bf_site 0; bf_site 1; bf_site 2] (MkConditions (fun id => if Nat.eqb id 5 then Some (fun _ _ _ => 0) else None) (fun _ => false))
    [MkBFace 5%nat [(1%nat, tt, 0%nat); (2%nat, tt, 0%nat)]] (fun _ => None) [] (fun _ => false) None None false.
Definition bf_par : force_parameters := MkForce 1 1 0 1 0 0 (1 / 4) true.
Definition bf_ls : element := iso_q1 1 1 (fun i => i) (fun i => i).
Definition bf_mesh : list mesh_cell := [(line_cell, fun y : list R => y)].
Definition bf_L (i : nat) : R := if Nat.eqb i 0 then - (1) else 1.
Definition bf_force : Model_Run.field := (fun i => if Nat.eqb i 0 then 2 / 3 else 0, fun _ => 0).
Definition bf_update : Model_Run.field := (fun i => nth i [0; 7; 7] 0, fun j => if Nat.eqb j 0 then - (1 / 2) else 1 / 2).
Definition bf_krylov : Z -> R -> Model_Run.field -> nat -> krylov (N:=RNum) (Model_Run.field) :=
  fun _ _ _ _ => MkKrylov (N:=RNum) _ 1%Z 0 bf_update true.
Definition bf_env (k : nat) : environment := MkEnv bf_krylov bf_krylov (fun _ => MkKrylov (N:=RNum) _ 0%Z 0 field_zero false) (fun _ => 0) bf_force.
Definition bf_s0 : state := MkState (ts_init ex_p) field_zero field_zero field_zero (MkPrec 0 0 true 0).

Lemma bf_x1 : let x1 := r_sol (run_steps bf_pb bf_env 1 bf_s0) in
  (forall i, fst x1 i = 0) /\ snd x1 0%nat = - (1 / 2) /\ snd x1 1%nat = 1 / 2.
Proof.
  intros x1.
  assert (G : exists g, x1 = field_add g (distribute_update bf_pb bf_update) /\ (forall i, fst g i = 0) /\ (forall i, snd g i = 0)).
  { eexists. unfold x1. clear x1. cbn [run_steps]. unfold advance_time_step, evaluate_time_step, solve_nonlinear_system. cbn [fst r_sol r_solution bf_s0].
    change (Z.to_nat (fp_max_nl_iteration (pb_fp bf_pb))) with 1%nat. cbn [nl_loop]. cbv zeta.
    split.
    - cbn [bf_pb pb_fp bf_fp fp_linearization is_implicit negb]. unfold shift_pressure. change (pb_fix bf_pb) with false. cbv iota.
      destruct (nltb _ _); cbn [ls_solution]; apply (f_equal (field_add _)); reflexivity.
    - cbn [ls_solution init_time_advance r_sol fst snd bf_s0 r_clock]. unfold apply_boundary_conditions_u, distribute, no_hanging. cbn. unfold extrapolate. cbn. split; intros i.
      + destruct i as [|[|[|i]]]; cbn; rnum; unfold Q2R; cbn; lra.
      + rnum; unfold Q2R; cbn; lra. }
  destruct G as (g & -> & G0 & G1). unfold field_add, distribute_update. cbn [fst snd]. split; [|split].
  - intros i. rewrite G0. destruct i as [|[|[|[|i]]]]; cbn; lra.
  - rewrite G1. cbn. lra.
  - rewrite G1. cbn. lra.
Qed.

Lemma bf_report : report bf_pb bf_env 0 bf_s0 <> (0, 0)%Z.
Proof.
  unfold report. cbn [run_steps].
  assert (F : shift_is_force_free bf_pb) by (intros m Hf; discriminate Hf).
  assert (T : tau1 (next (r_clock bf_s0)) = 1) by (cbn; unfold Q2R; cbn; lra).
  apply (implicit_step bf_pb (bf_env 0) bf_s0 eq_refl eq_refl ltac:(cbn; lia) F T). clear F T.
  destruct bf_x1 as (X & X1 & X2). cbn [run_steps] in X, X1, X2. set (x1 := r_sol (fst (advance_time_step bf_pb (bf_env 0) bf_s0))) in *. clearbody x1.
  unfold defect_norm. change (pb_nu bf_pb) with 3%nat. change (pb_np bf_pb) with 2%nat. cbn [sumn].
  change (dirichlet_dof bf_pb 0) with false. change (dirichlet_dof bf_pb 1) with true. change (dirichlet_dof bf_pb 2) with true. cbv iota.
  assert (V : forall s d, velocity_at bf_pb (fst x1) s d = 0) by (intros; unfold velocity_at; apply sumn_zero; intros; rewrite X; ring).
  assert (G : forall s d e, gradient_at bf_pb (fst x1) s d e = 0) by (intros; unfold gradient_at; apply sumn_zero; intros; rewrite X; ring).
  assert (D : forall s, divergence_at bf_pb (fst x1) s = 0) by (intros; unfold divergence_at; apply sumn_zero; intros; apply G).
  match goal with |- sqrt (0 + ?a ^ 2 + ?b ^ 2 + ?e ^ 2 + (0 + ?c ^ 2 + ?d ^ 2)) < _ => assert (Ea : a = 0); [|assert (Eb : b = 0) by reflexivity; assert (Ee : e = 0) by reflexivity; assert (Ec : forall i, without_means bf_pb (continuity_defect bf_pb (snd (e_user (bf_env 0))) x1) i = 0)] end.
  - unfold momentum_defect. change (pb_sites bf_pb) with [bf_site 0; bf_site 1; bf_site 2]. change (pb_dim bf_pb) with 1%nat. cbn [suml sumn].
    unfold convective_with. change (fp_linearization (pb_fp bf_pb)) with coupled_implicit_picard. cbv iota.
    unfold weighted, transport, external_load, sym. rewrite !D, !V. change (pb_dim bf_pb) with 1%nat. cbn [sumn]. rewrite !V, !G.
    assert (V0 : forall s d, velocity_at bf_pb (fst (r_sol bf_s0)) s d = 0) by (intros; unfold velocity_at; apply sumn_zero; intros; cbn; ring).
    assert (V1 : forall s d, velocity_at bf_pb (fst (r_old bf_s0)) s d = 0) by (intros; unfold velocity_at; apply sumn_zero; intros; cbn; ring).
    rewrite ?V0, ?V1. generalize (weight (next (N:=RNum) (r_clock bf_s0))) (weight_old (next (N:=RNum) (r_clock bf_s0))) (weight_old_old (next (N:=RNum) (r_clock bf_s0))). intros w0 w1 w2. unfold pressure_at, test_divergence. change (pb_np bf_pb) with 2%nat. change (pb_dim bf_pb) with 1%nat. cbn [sumn]. cbn. rewrite X1, X2. field.
  - intros i. change (without_means bf_pb (continuity_defect bf_pb (snd (e_user (bf_env 0))) x1) i) with (continuity_defect bf_pb (snd (e_user (bf_env 0))) x1 i). unfold continuity_defect. change (pb_con_p bf_pb i) with false. cbv iota. rewrite suml_zero; [cbn; ring|]. intros s _. rewrite D. ring.
  - rewrite Ea, Eb, Ee, !Ec. replace (0 + 0 ^ 2 + 0 ^ 2 + 0 ^ 2 + (0 + 0 ^ 2 + 0 ^ 2)) with 0 by ring. rewrite sqrt_0. cbn. lra.
Qed.
Lemma bf_is_container : container bf_pb 1.
Proof.
  assert (D1 : dirichlet_dof bf_pb 1 = true) by reflexivity. assert (D2 : dirichlet_dof bf_pb 2 = true) by reflexivity.
  constructor.
  - split; [lra|]. intros s [<-|[<-|[<-|[]]]]; reflexivity.
  - split; [cbn; lra|]. intros s [<-|[<-|[<-|[]]]]; cbn; lra.
  - intros time i Hi Hd. change (pb_nu bf_pb) with 3%nat in Hi.
    assert (Hi' : i = 1%nat \/ i = 2%nat) by (destruct i as [|[|[|i]]]; [discriminate Hd|left; reflexivity|right; reflexivity|lia]). split.
    + exists (MkBFace 5%nat [(1%nat, tt, 0%nat); (2%nat, tt, 0%nat)]). split; [left; reflexivity|]. exists (fun _ _ => 0), tt, 0%nat. split; [reflexivity|]. split; [destruct Hi' as [-> | ->]; [left|right; left]; reflexivity|reflexivity].
    + intros f v [<-|[]] (g & y & k & E & Hin & ->). cbn in E. inversion E; subst g. reflexivity.
  - intros f [].
  - reflexivity.
  - intros a u Ha Hu. assert (A1 := Ha 1%nat ltac:(cbn; lia) D1). assert (U1 := Hu 1%nat ltac:(cbn; lia) D1).
    assert (A2 := Ha 2%nat ltac:(cbn; lia) D2). assert (U2 := Hu 2%nat ltac:(cbn; lia) D2).
    unfold speed2, divergence_at, velocity_at, gradient_at. cbn. rewrite A1, U1, A2, U2. ring.
  - intros m i [H|H]; discriminate H.
  - intros m m' i H; discriminate H.
Qed.
(** the hypotheses of C118_drop hold and the force is not zero; the step is successful and the fluid stays at rest *)
Example C118_nonvacuous : let P := fun k => laplace_pressure false FEQ bf_ls q1_line bf_par 2 bf_mesh bf_L in
  balanced_run bf_pb 1 bf_env bf_s0 ex_p P /\ tp_scheme ex_p = implicit_euler /\ succeeded bf_pb bf_env bf_s0 1 /\
  (forall j, (j < 1)%nat -> at_end (r_clock (run_steps bf_pb bf_env j bf_s0)) = false) /\
  (P 1%nat 0%nat = - (1 / 2) /\ P 1%nat 1%nat = 1 / 2) /\ fst (e_user (bf_env 0)) 0%nat = 2 / 3 /\
  energy bf_pb bf_env bf_s0 0 = 0 /\ energy bf_pb bf_env bf_s0 1 = 0.
Proof.
  intros P.
  assert (Hc : forall c q, In c bf_mesh -> (q < g_nq (fst c))%nat -> curvature_value (cell_of false FEQ bf_ls q1_line bf_L (fst c)) q = 2).
  { intros c q [<-|[]] Hq. unfold curvature_value, Model_LevelSet.fe_value. cbn. lra. }
  assert (HN : numbering (e_n bf_ls) (e_lex bf_ls)) by (split; cbn; intros; assumption).
  assert (HO : nodal false FEQ q1_line bf_mesh).
  { intros c c' j j' [<-|[]] [<-|[]] Hj Hj' E. cbn in E. subst j'. split; [reflexivity|reflexivity]. }
  assert (HC : continuous false FEQ bf_ls q1_line bf_L bf_mesh).
  { intros c c' y y' [<-|[]] [<-|[]] E _ _. cbn in E. subst y'. reflexivity. }
  assert (HP : forall (Q : nat -> R), weak_gradient false q1_line bf_mesh Q 0 0 = - suml (pb_sites bf_pb) (fun s => st_JxW s * (pressure_at bf_pb Q s * test_divergence bf_pb s 0))).
  { intros Q. unfold weak_gradient, pressure_at, test_divergence. cbn. unfold simpson, order. cbn. field. }
  assert (LS := laplace_spec false FEQ bf_ls q1_line bf_par 2 bf_mesh bf_L HN HC HO eq_refl eq_refl Hc). destruct LS as (L1 & _ & L3).
  assert (PV : P 1%nat 0%nat = - (1 / 2) /\ P 1%nat 1%nat = 1 / 2).
  { split; [etransitivity; [exact (L1 (line_cell, fun y : list R => y) 0%nat (or_introl eq_refl) ltac:(cbn; lia))|]|etransitivity; [exact (L1 (line_cell, fun y : list R => y) 1%nat (or_introl eq_refl) ltac:(cbn; lia))|]];
      unfold Properties_PressureInterpolation.field, bf_ls, iso_q1; cbn; unfold Model_ContactAngle.hat, bf_L; cbn;
      repeat match goal with |- context [Rmax ?a ?b] => rewrite (Rmax_right a b) by (unfold Rabs; destruct (Rcase_abs _); lra) || rewrite (Rmax_left a b) by (unfold Rabs; destruct (Rcase_abs _); lra) end; unfold Rabs; repeat destruct (Rcase_abs _); lra. }
  split; [|split; [reflexivity|split; [exact bf_report|split; [intros j Hj; replace j with 0%nat by lia; reflexivity|split; [exact PV|split; [reflexivity|split]]]]]].
  - apply (C118_drop bf_pb 1 bf_env bf_s0 ex_p false FEQ bf_ls q1_line bf_par 2 bf_mesh (fun _ => bf_L) (fun _ => (0, 0)%nat)); try assumption; try reflexivity.
    + exact bf_is_container.
    + unfold well_posed; cbn; rnum; lra.
    + right; left; reflexivity.
    + split; reflexivity.
    + intros i _ _. reflexivity.
    + intros _. exact HC.
    + intros _. exact Hc.
    + intros k i Hi Hd. change (pb_nu bf_pb) with 3%nat in Hi. destruct i as [|[|[|i]]]; [|discriminate Hd|discriminate Hd|lia].
      cbn [fst snd]. rewrite L3, HP. destruct PV as [P0 P1]. change (laplace_pressure false FEQ bf_ls q1_line bf_par 2 bf_mesh bf_L) with (P 1%nat).
      set (Q := P 1%nat) in *. clearbody Q. unfold pressure_at, test_divergence. cbn. rewrite P0, P1. field.
    + intros Q i Hi Hd _. change (pb_nu bf_pb) with 3%nat in Hi. destruct i as [|[|[|i]]]; [|discriminate Hd|discriminate Hd|lia]. apply HP.
  - unfold energy, kinetic_energy, energy_of, speed2, velocity_at. cbn. field.
  - unfold energy, kinetic_energy, energy_of. rewrite suml_zero; [ring|]. intros s _. unfold speed2. rewrite sumn_zero; [ring|]. intros d _. unfold velocity_at. rewrite sumn_zero; [ring|].
    intros i _. rewrite (proj1 bf_x1). ring.
Qed.
