(** * C125: the volume balance of the flow in an accepted time step *)
From Coq Require Import Reals List Bool Arith ZArith Lra Lia.
From Verif Require Import Num SumR Model_Parameters Model_TimeStepping Spec_TimeStepping Proofs_TimeStepping Proofs_TimeStepping2.
From Verif Require Import Model_NonlinearSolver Properties_NonlinearSolver Model_NSOperator Properties_NSOperator.
From Verif Require Import Model_BoundaryValues Properties_BoundaryValues Model_Run Properties_Run Model_ThetaSchemes Properties_ThetaSchemes.
From Verif Require Properties_Energy.
Import ListNotations.
Open Scope R_scope.

(** ** Specification *)
Section Spec.
Context {point : Type}.
Variable pb : problem point.
(** the integral of the divergence over a part of the domain: what flows out of it *)
Definition outflow (part : site -> bool) (u : vec) : R :=
  suml (pb_sites pb) (fun s => if part s then st_JxW s * sumn (pb_dim pb) (fun d => sumn (pb_nu pb) (fun j => u j * st_dphi s j d d)) else 0).
(** what flows out through faces *)
Definition flux (faces : list (oface point)) (u : vec) : R :=
  suml faces (fun f => suml (of_pts f) (fun q => fq_JxW q * sumn (pb_dim pb) (fun d => sumn (of_n f) (fun a => u (of_dof f a) * fq_phi q a d) * fq_normal q d))).
(** the coefficients of a pressure function that is one in the part and zero elsewhere; the coefficients of the constrained pressure unknowns
    are zero *)
Definition indicator (part : site -> bool) (Q : vec) : Prop :=
  (forall s, In s (pb_sites pb) -> sumn (pb_np pb) (fun i => Q i * st_psi s i) = if part s then 1 else 0) /\
  (forall i, (i < pb_np pb)%nat -> pb_con_p pb i = true -> Q i = 0).
Definition length_of (Q : vec) : R := sqrt (sumn (pb_np pb) (fun i => Q i ^ 2)).
(** orthogonal to the pressure modes that are removed from the equations *)
Definition unaffected (Q : vec) : Prop :=
  forall m, pb_m0 pb = Some m \/ pb_m1 pb = Some m -> sumn (pb_np pb) (fun i => Q i * mode_vector m i) = 0.
(** Gauss' theorem for the velocity shape functions on the part with the given boundary faces *)
Definition gauss (part : site -> bool) (faces : list (oface point)) : Prop :=
  forall u, outflow part u = flux faces u.
End Spec.

Section Proofs.
Context {point : Type}.
Variable pb : problem point.
Lemma without_mean_tested (m : option mode) (v Q : vec) : (forall m', m = Some m' -> sumn (pb_np pb) (fun i => Q i * mode_vector m' i) = 0) ->
  sumn (pb_np pb) (fun i => Q i * without_mean pb m v i) = sumn (pb_np pb) (fun i => Q i * v i).
Proof.
  intros H. unfold without_mean. destruct m as [m|]; [|reflexivity].
  set (c := mode_inverse m * sumn (pb_np pb) (fun j => mode_weights m j * v j)).
  rewrite (sumn_ext _ _ (fun i => Q i * v i - c * (Q i * mode_vector m i))) by (intros; ring). rewrite sumn_minus, sumn_scal, (H m eq_refl). ring.
Qed.
Lemma tested (source : vec) (x : field) (Q : vec) : unaffected pb Q -> (forall i, (i < pb_np pb)%nat -> pb_con_p pb i = true -> Q i = 0) ->
  sumn (pb_np pb) (fun i => Q i * without_means pb (continuity_defect pb source x) i) =
  sumn (pb_np pb) (fun i => Q i * source i) + suml (pb_sites pb) (fun s => st_JxW s * (divergence_at pb (fst x) s * sumn (pb_np pb) (fun i => Q i * st_psi s i))).
Proof.
  intros U C. unfold without_means. rewrite without_mean_tested by (intros m Hm; apply (U m); auto). rewrite without_mean_tested by (intros m Hm; apply (U m); auto).
  rewrite (suml_ext _ _ (fun s => sumn (pb_np pb) (fun i => Q i * (st_JxW s * (divergence_at pb (fst x) s * st_psi s i))))).
  - rewrite suml_sumn, <- sumn_plus. apply sumn_ext. intros i Hi. unfold continuity_defect. destruct (pb_con_p pb i) eqn:E.
    + rewrite (C i Hi E). rewrite (suml_zero (pb_sites pb)) by (intros; ring). ring.
    + rewrite suml_scal, Rmult_plus_distr_l. reflexivity.
  - intros s _. rewrite <- !sumn_scal. apply sumn_ext. intros. ring.
Qed.
Lemma bound_tested (A : R) (w Q : vec) (tol : R) : 0 <= A -> sqrt (A + sumn (pb_np pb) (fun i => w i ^ 2)) <= tol ->
  Rabs (sumn (pb_np pb) (fun i => Q i * w i)) <= tol * length_of pb Q.
Proof.
  intros HA H.
  assert (K : forall v : vec, (forall i, v i ^ 2 = w i ^ 2) -> sumn (pb_np pb) (fun i => v i * Q i) <= tol * length_of pb Q).
  { intros v Hv. pose proof (Properties_Energy.two_block_cs 0 (pb_np pb) (fun _ => 0) (fun _ => 0) v Q) as B. cbn [sumn] in B. rewrite !Rplus_0_l in B.
    eapply Rle_trans; [exact B|]. unfold length_of. apply Rmult_le_compat_r; [apply sqrt_pos|]. eapply Rle_trans; [|exact H]. apply sqrt_le_1_alt.
    rewrite (sumn_ext _ (fun i => v i ^ 2) (fun i => w i ^ 2)) by (intros; apply Hv). lra. }
  apply Rabs_le. split.
  - specialize (K (fun i => - w i) ltac:(intros; cbv beta; ring)). rewrite (sumn_ext _ _ (fun i => -1 * (Q i * w i))) in K by (intros; ring). rewrite sumn_scal in K. lra.
  - specialize (K w ltac:(reflexivity)). rewrite (sumn_ext _ _ (fun i => Q i * w i)) in K by (intros; ring). exact K.
Qed.
Lemma balance (A : R) (source : vec) (x : field) (tol : R) part Q : 0 <= A ->
  sqrt (A + sumn (pb_np pb) (fun i => without_means pb (continuity_defect pb source x) i ^ 2)) <= tol ->
  indicator pb part Q -> unaffected pb Q -> (forall i, source i = 0) ->
  Rabs (outflow pb part (fst x)) <= tol * length_of pb Q.
Proof.
  intros HA H [I C] U Z. pose proof (bound_tested A _ Q tol HA H) as B. rewrite (tested source x Q U C) in B.
  rewrite sumn_zero in B by (intros; rewrite Z; ring). rewrite Rplus_0_l in B.
  rewrite (suml_ext _ _ (fun s => if part s then st_JxW s * sumn (pb_dim pb) (fun d => sumn (pb_nu pb) (fun j => fst x j * st_dphi s j d d)) else 0)) in B; [exact B|].
  intros s Hs. rewrite (I s Hs). destruct (part s); [|ring]. unfold divergence_at, gradient_at. ring.
Qed.
Lemma difference_balance (A : R) (source : vec) (x : field) (tol : R) part1 part2 Q1 Q2 (v1 v2 : R) : 0 <= A ->
  sqrt (A + sumn (pb_np pb) (fun i => without_means pb (continuity_defect pb source x) i ^ 2)) <= tol ->
  indicator pb part1 Q1 -> indicator pb part2 Q2 -> unaffected pb (fun i => v2 * Q1 i - v1 * Q2 i) -> (forall i, source i = 0) ->
  Rabs (v2 * outflow pb part1 (fst x) - v1 * outflow pb part2 (fst x)) <= tol * length_of pb (fun i => v2 * Q1 i - v1 * Q2 i).
Proof.
  intros HA H [I1 C1] [I2 C2] U Z.
  assert (Cq : forall i, (i < pb_np pb)%nat -> pb_con_p pb i = true -> v2 * Q1 i - v1 * Q2 i = 0) by (intros i Hi E; rewrite (C1 i Hi E), (C2 i Hi E); ring).
  assert (L : forall s, In s (pb_sites pb) -> sumn (pb_np pb) (fun i => (v2 * Q1 i - v1 * Q2 i) * st_psi s i) = v2 * (if part1 s then 1 else 0) - v1 * (if part2 s then 1 else 0)).
  { intros s Hs. rewrite (sumn_ext _ (fun i => (v2 * Q1 i - v1 * Q2 i) * st_psi s i) (fun i => v2 * (Q1 i * st_psi s i) - v1 * (Q2 i * st_psi s i))) by (intros; ring).
    rewrite sumn_minus, !sumn_scal, (I1 s Hs), (I2 s Hs). reflexivity. }
  set (Q := fun i => v2 * Q1 i - v1 * Q2 i) in *. change (forall i, (i < pb_np pb)%nat -> pb_con_p pb i = true -> Q i = 0) in Cq.
  change (forall s, In s (pb_sites pb) -> sumn (pb_np pb) (fun i => Q i * st_psi s i) = v2 * (if part1 s then 1 else 0) - v1 * (if part2 s then 1 else 0)) in L. clearbody Q.
  pose proof (bound_tested A _ Q tol HA H) as B. rewrite (tested source x Q U Cq) in B.
  rewrite sumn_zero in B by (intros; rewrite Z; ring). rewrite Rplus_0_l in B.
  match type of B with Rabs ?a <= _ => assert (E : a = v2 * outflow pb part1 (fst x) - v1 * outflow pb part2 (fst x)); [|rewrite E in B; exact B] end.
  unfold outflow. rewrite <- !suml_scal, <- suml_minus. apply suml_ext. intros s Hs. rewrite (L s Hs). unfold divergence_at, gradient_at.
  destruct (part1 s), (part2 s); ring.
Qed.
End Proofs.

Section Theorems.
Context {point : Type}.
Variable pb : problem point.
Variable env : nat -> environment.
Variable s0 : state.
Variable p : ts_params RNum.
Notation x := (fun k => r_sol (run_steps pb env k s0)).
Notation t := (fun k => now (r_clock (run_steps pb env k s0))).

(** what holds for a step with continuity defect below [tol]: with open boundary (no mode is removed) or whenever the test function is not
    affected by the removed modes, what flows out of every part that the pressure space resolves is zero up to the tolerance *)
Definition conserves (tol : R) (u : vec) : Prop :=
  (forall part Q, indicator pb part Q -> unaffected pb Q -> Rabs (outflow pb part u) <= tol * length_of pb Q) /\
  (forall part Q faces, indicator pb part Q -> unaffected pb Q -> gauss pb part faces -> Rabs (flux pb faces u) <= tol * length_of pb Q) /\
  (forall part1 part2 Q1 Q2 v1 v2, indicator pb part1 Q1 -> indicator pb part2 Q2 -> unaffected pb (fun i => v2 * Q1 i - v1 * Q2 i) ->
     Rabs (v2 * outflow pb part1 u - v1 * outflow pb part2 u) <= tol * length_of pb (fun i => v2 * Q1 i - v1 * Q2 i)).
Lemma conserves_step A source (y : field) tol : 0 <= A -> (forall i, source i = 0) ->
  sqrt (A + sumn (pb_np pb) (fun i => without_means pb (continuity_defect pb source y) i ^ 2)) <= tol -> conserves tol (fst y).
Proof.
  intros HA Z H. split; [|split].
  - intros part Q I U. apply (balance pb A source y tol part Q HA H I U Z).
  - intros part Q faces I U G. rewrite <- (G (fst y)). apply (balance pb A source y tol part Q HA H I U Z).
  - intros part1 part2 Q1 Q2 v1 v2 I1 I2 U. apply (difference_balance pb A source y tol part1 part2 Q1 Q2 v1 v2 HA H I1 I2 U Z).
Qed.

(** implicit formulations, all time schemes: every step that reports success conserves volume up to the nonlinear tolerance *)
Theorem C125_implicit :
  r_clock s0 = ts_init p -> well_posed p ->
  fp_physical_type (pb_fp pb) = incompressible -> iterated (fp_linearization (pb_fp pb)) = true ->
  (0 < fp_max_nl_iteration (pb_fp pb) < 4294967296)%Z -> shift_is_force_free pb ->
  (forall k i, snd (e_user (env k)) i = 0) ->
  exists n, at_end (r_clock (run_steps pb env n s0)) = true /\ t n = tp_end p /\
    forall k, (1 <= k <= n)%nat -> report pb env (k - 1) s0 <> (0, 0)%Z ->
      conserves (fp_tol_nl_iteration (pb_fp pb)) (fst (x k)).
Proof.
  intros H0 W Hty Hi Hmax F Z. destruct (C121_run pb env s0 p H0 W Hty Hi Hmax F) as (n & He & _ & _ & _ & Hn & Hk).
  exists n. split; [exact He|]. split; [exact Hn|]. intros k K R. destruct (Hk k K) as (_ & _ & delta & _ & E). apply E in R. clear E.
  unfold kept_norm in R. eapply conserves_step; [|exact (Z (k - 1)%nat)|apply Rlt_le; exact R]. apply sumn_nonneg. intros. apply pow2_ge_0.
Qed.
(** linearized formulations: if the linear solvers converge *)
Theorem C125_linearized :
  r_clock s0 = ts_init p -> well_posed p ->
  fp_physical_type (pb_fp pb) = incompressible -> linearized (fp_linearization (pb_fp pb)) = true ->
  (0 < fp_max_nl_iteration (pb_fp pb))%Z -> shift_is_force_free pb -> (forall i, pb_con_p pb i = false) ->
  (forall k i, snd (e_user (env k)) i = 0) ->
  exists n, at_end (r_clock (run_steps pb env n s0)) = true /\ t n = tp_end p /\
    forall k, (1 <= k <= n)%nat -> (Z.of_nat k <= 4294967296)%Z -> reliable pb (env (k - 1)%nat) (run_steps pb env (k - 1) s0) ->
      conserves (linear_bound (pb_fp pb)) (fst (x k)).
Proof.
  intros H0 W Hty Hi Hmax F Hc Z. destruct (C121_linearized_run pb env s0 p H0 W Hty Hi Hmax F Hc) as (n & He & _ & _ & Hn & Hk).
  exists n. split; [exact He|]. split; [exact Hn|]. intros k K Lk Rel. destruct (Hk k K) as (_ & _ & E). destruct (E Lk Rel) as (delta & _ & R). clear E.
  unfold free_kept_norm in R. eapply conserves_step; [|exact (Z (k - 1)%nat)|exact R]. apply sumn_nonneg. intros i _. destruct (dirichlet_dof pb i); [lra|apply pow2_ge_0].
Qed.
End Theorems.
Print Assumptions C125_implicit.
Print Assumptions C125_linearized.

(** ** A mean that the modes remove is not seen: an enclosed flow with a net inflow *)
Section Blind.
Context {point : Type}.
Variable pb : problem point.
(** a part of the continuity equations that is a multiple of the removed mode changes nothing *)
Lemma without_mean_blind (m : mode) (v : vec) (a : R) : mode_inverse m * sumn (pb_np pb) (fun j => mode_weights m j * mode_vector m j) = 1 ->
  forall i, without_mean pb (Some m) (fun i => v i + a * mode_vector m i) i = without_mean pb (Some m) v i.
Proof.
  intros E i. cbn [without_mean]. rewrite (sumn_ext _ _ (fun j => mode_weights m j * v j + a * (mode_weights m j * mode_vector m j))) by (intros; ring).
  rewrite sumn_plus, sumn_scal. transitivity (v i + a * mode_vector m i - (mode_inverse m * sumn (pb_np pb) (fun j => mode_weights m j * v j) + a * (mode_inverse m * sumn (pb_np pb) (fun j => mode_weights m j * mode_vector m j))) * mode_vector m i); [ring|].
  rewrite E. ring.
Qed.
End Blind.

(** one cell of length one with linear velocity and constant pressure; the velocities of both ends are given as 0 and 1 *)
Definition mb_site : site := MkSite 1 (fun _ _ => 1 / 2) (fun j _ _ => if Nat.eqb j 0 then -1 else 1) (fun _ => 1) 1 1 0.
Definition mb_end (id dof : nat) (n : R) : oface unit := MkOFace id 1 (fun _ => dof) [MkFQ 1 (fun _ => n) tt (fun _ _ => 1)].
Definition mb_ends : list (oface unit) := [mb_end 5 0 (-1); mb_end 6 1 1].
Definition mb_mode : mode := MkMode (fun _ => 1) (fun _ => 1) 1.
Definition mb_pb (outlet : option R) (modes : option mode) : problem unit :=
  MkProblem (ex_fp coupled_implicit_picard) 1 2 1 [mb_site]
    (MkConditions (fun id => if Nat.eqb id 5 then Some (fun _ _ _ => match outlet with Some _ => 0 | None => 1 end) else
                             match outlet with Some v => if Nat.eqb id 6 then Some (fun _ _ _ => v) else None | None => None end) (fun _ => false))
    [MkBFace 5%nat [(0%nat, tt, 0%nat)]; MkBFace 6%nat [(1%nat, tt, 0%nat)]] (fun _ => None) [mb_end 6 1 1] (fun _ => false) modes None false.
Definition everything : site -> bool := fun _ => true.
Lemma mb_gauss o m : gauss (mb_pb o m) everything mb_ends.
Proof.
  intros u. unfold outflow, flux. change (pb_sites (mb_pb o m)) with [mb_site]. change (pb_dim (mb_pb o m)) with 1%nat. change (pb_nu (mb_pb o m)) with 2%nat. cbn. ring.
Qed.
Lemma mb_indicator o m : indicator (mb_pb o m) everything (fun _ => 1).
Proof. split; [|intros i _ E; discriminate E]. intros s [<-|[]]. change (pb_np (mb_pb o m)) with 1%nat. cbn. ring. Qed.

(** enclosed flow: both end velocities are prescribed and they do not match.  Whatever the linear solvers do, every step is accepted, and what
    flows out is 1 although nothing flows in *)
Theorem C125_violation_enclosed : exists (pb : problem unit) s0 p (faces : list (oface unit)),
  r_clock s0 = ts_init p /\ well_posed p /\ fp_physical_type (pb_fp pb) = incompressible /\ iterated (fp_linearization (pb_fp pb)) = true /\
  (0 < fp_max_nl_iteration (pb_fp pb) < 4294967296)%Z /\ shift_is_force_free pb /\ gauss pb everything faces /\ indicator pb everything (fun _ => 1) /\
  forall env, (forall k, e_user (env k) = field_zero) ->
  exists n, (1 <= n)%nat /\ at_end (r_clock (run_steps pb env n s0)) = true /\
    forall k, (1 <= k <= n)%nat -> report pb env (k - 1) s0 <> (0, 0)%Z /\ flux pb faces (fst (r_sol (run_steps pb env k s0))) = 1.
Proof.
  exists (mb_pb (Some 1) (Some mb_mode)), ex_s0, ex_p, mb_ends. set (pb := mb_pb (Some 1) (Some mb_mode)).
  assert (W : well_posed ex_p) by (unfold well_posed; cbn; rnum; lra). assert (F : shift_is_force_free pb) by (intros m Hf; discriminate Hf).
  split; [reflexivity|]. split; [exact W|]. split; [reflexivity|]. split; [reflexivity|]. split; [cbn; lia|]. split; [exact F|].
  split; [apply mb_gauss|]. split; [apply mb_indicator|]. intros env U.
  destruct (C121_run pb env ex_s0 ex_p eq_refl W eq_refl eq_refl ltac:(cbn; lia) F) as (n & He & _ & _ & Hz & Hn & Hk). exists n.
  split. { destruct n; [|lia]. exfalso. rewrite Hz in Hn. cbn in Hn. lra. }
  split; [exact He|]. intros k K. destruct (Hk k K) as (_ & Hd & delta & _ & E).
  assert (P0 : fst (r_sol (run_steps pb env k ex_s0)) 0%nat = 0).
  { apply Hd. split.
    - exists (MkBFace 5%nat [(0%nat, tt, 0%nat)]). split; [left; reflexivity|]. exists (fun _ _ => 0), tt, 0%nat. repeat split. left; reflexivity.
    - intros f v [<-|[<-|[]]] (g & y & q & Eg & Hin & ->); cbn in Eg; inversion Eg; subst g; reflexivity || (destruct Hin as [Hin|[]]; discriminate Hin). }
  assert (P1 : fst (r_sol (run_steps pb env k ex_s0)) 1%nat = 1).
  { apply Hd. split.
    - exists (MkBFace 6%nat [(1%nat, tt, 0%nat)]). split; [right; left; reflexivity|]. exists (fun _ _ => 1), tt, 0%nat. repeat split. left; reflexivity.
    - intros f v [<-|[<-|[]]] (g & y & q & Eg & Hin & ->); cbn in Eg; inversion Eg; subst g; reflexivity || (destruct Hin as [Hin|[]]; discriminate Hin). }
  split.
  - apply E. unfold kept_norm. rewrite U. change (pb_nu pb) with 2%nat. change (pb_np pb) with 1%nat. cbn [sumn].
    change (dirichlet_dof pb 0) with true. change (dirichlet_dof pb 1) with true. cbv iota.
    assert (Z : without_means pb (continuity_defect pb (snd field_zero) (r_sol (run_steps pb env k ex_s0))) 0%nat = 0).
    { unfold without_means. change (pb_m1 pb) with (@None mode). change (pb_m0 pb) with (Some mb_mode). cbn [without_mean]. change (pb_np pb) with 1%nat. cbn. ring. }
    rewrite Z. cbn [field_zero fst]. match goal with |- sqrt ?a < _ => replace a with 0 by ring end. rewrite sqrt_0. cbn. lra.
  - unfold flux, mb_ends. cbn [suml of_pts mb_end of_n of_dof fq_JxW fq_phi fq_normal]. change (pb_dim pb) with 1%nat. cbn [sumn]. rewrite P0, P1. ring.
Qed.
Print Assumptions C125_violation_enclosed.

(** ** The hypotheses of C125_implicit are met: inflow 1, open outlet, no mode; the step is accepted *)
Definition mb_krylov : Z -> R -> field -> nat -> krylov (N:=RNum) field :=
  fun _ _ _ _ => MkKrylov (N:=RNum) field 1%Z 0 (fun i => if Nat.eqb i 0 then 7 else 1, fun _ => - 5 / 2) true.
Definition mb_env : environment :=
  MkEnv mb_krylov mb_krylov (fun _ => MkKrylov (N:=RNum) field 0%Z 0 field_zero false) (fun _ => 0) (fun i => if Nat.eqb i 0 then 0 else 3, fun _ => 0).
Lemma mb_x1 : let x1 := r_sol (run_steps (mb_pb None None) (fun _ => mb_env) 1 ex_s0) in fst x1 0%nat = 1 /\ fst x1 1%nat = 1 /\ snd x1 0%nat = - 5 / 2.
Proof.
  intros x1.
  assert (G : exists g : field, x1 = field_add g (distribute_update (mb_pb None None) (fun i => if Nat.eqb i 0 then 7 else 1, fun _ => - 5 / 2)) /\ fst g 0%nat = 1 /\ fst g 1%nat = 0 /\ snd g 0%nat = 0).
  { eexists. unfold x1. clear x1. cbn [run_steps]. unfold advance_time_step, evaluate_time_step, solve_nonlinear_system. cbn [fst r_sol r_solution ex_s0].
    unfold shift_pressure. change (pb_fix (mb_pb None None)) with false. cbv iota.
    change (Z.to_nat (fp_max_nl_iteration (pb_fp (mb_pb None None)))) with 1%nat. cbn [nl_loop]. cbv zeta.
    assert (U : forall tol call, l_update field (solve_system field field_zero (oracles_at (mb_pb None None) mb_env (init_time_advance (mb_pb None None) ex_s0)) (ex_fp coupled_implicit_picard) tol call)
              = distribute_update (mb_pb None None) (fun i => if Nat.eqb i 0 then 7 else 1, fun _ => - 5 / 2)).
    { intros tol call. unfold solve_system. cbn. reflexivity. }
    split.
    - change (pb_fp (mb_pb None None)) with (ex_fp coupled_implicit_picard). cbn [ex_fp fp_linearization is_implicit negb].
      destruct (nltb _ _); cbn [ls_solution]; apply (f_equal (field_add _)); exact (U _ _).
    - cbn [ls_solution init_time_advance r_sol fst snd ex_s0 r_clock]. unfold apply_boundary_conditions_u, distribute, no_hanging. cbn.
      unfold extrapolate. rnum. repeat split; ring. }
  destruct G as (g & -> & G0 & G1 & G2). cbn. rewrite G0, G1, G2. repeat split; lra.
Qed.
Example C125_nonvacuous : let pb := mb_pb None None in
  r_clock ex_s0 = ts_init ex_p /\ well_posed ex_p /\ shift_is_force_free pb /\ indicator pb everything (fun _ => 1) /\ unaffected pb (fun _ => 1) /\ gauss pb everything mb_ends /\
  report pb (fun _ => mb_env) 0 ex_s0 <> (0, 0)%Z /\ flux pb mb_ends (fst (r_sol (run_steps pb (fun _ => mb_env) 1 ex_s0))) = 0 /\
  flux pb [mb_end 6 1 1] (fst (r_sol (run_steps pb (fun _ => mb_env) 1 ex_s0))) = 1.
Proof.
  intros pb. assert (W : well_posed ex_p) by (unfold well_posed; cbn; rnum; lra). assert (F : shift_is_force_free pb) by (intros m Hf; discriminate Hf).
  split; [reflexivity|]. split; [exact W|]. split; [exact F|]. split; [apply mb_indicator|]. split; [intros m [Hm|Hm]; discriminate Hm|]. split; [apply mb_gauss|].
  destruct mb_x1 as (X0 & X1 & X2). fold pb in X0, X1, X2. split.
  - destruct (C121_run pb (fun _ => mb_env) ex_s0 ex_p eq_refl W eq_refl eq_refl ltac:(cbn; lia) F) as (n & _ & _ & _ & Hz & He & Hk).
    assert (L : (1 <= n)%nat). { destruct n; [|lia]. exfalso. rewrite Hz in He. cbn in He. lra. }
    destruct (Hk 1%nat ltac:(lia)) as (_ & _ & delta & Hd & Q). change (1 - 1)%nat with 0%nat in Q. apply Q. clear Q Hk.
    assert (T1 : now (r_clock (run_steps pb (fun _ => mb_env) 1 ex_s0)) = 1) by exact ex_time.
    assert (T0 : now (r_clock (run_steps pb (fun _ => mb_env) 0 ex_s0)) = 0) by reflexivity.
    assert (Z0 : fst (r_sol (run_steps pb (fun _ => mb_env) 0 ex_s0)) = fun _ => 0) by reflexivity.
    unfold kept_norm. change (pb_nu pb) with 2%nat. change (pb_np pb) with 1%nat. cbn [sumn].
    change (dirichlet_dof pb 0) with true. change (dirichlet_dof pb 1) with false. cbv iota. cbn [e_user mb_env fst snd Nat.eqb].
    match goal with |- sqrt (0 + _ + ?a ^ 2 + (0 + ?b ^ 2)) < _ => assert (Ea : a = - (delta / 2)); [|assert (Eb : b = 0); [|rewrite Ea, Eb]] end.
    + set (x := fun k => r_sol (run_steps pb (fun _ => mb_env) k ex_s0)) in *. set (t := fun k => now (r_clock (run_steps pb (fun _ => mb_env) k ex_s0))) in *.
      change (r_sol (run_steps pb (fun _ => mb_env) 1 ex_s0)) with (x 1%nat).
      assert (Cv : convective pb 1 t x mb_site 0 = 0).
      { unfold convective. change (fp_linearization (pb_fp pb)) with coupled_implicit_picard. cbv iota. unfold transport, divergence_at, gradient_at, velocity_at.
        change (pb_nu pb) with 2%nat. change (pb_dim pb) with 1%nat. change (fp_beta (pb_fp pb)) with 0. cbn [sumn]. fold (x 1%nat) in X0, X1. rewrite X0, X1. cbn. field. }
      unfold kept_defect, other_force, flow_force, external_load. change (pb_sites pb) with [mb_site]. change (pb_dim pb) with 1%nat. cbn [suml sumn]. rewrite !Cv.
      unfold derivative, difference, lead, three_levels. cbn [scheme_eqb andb ex_p tp_scheme]. change (1 - 1)%nat with 0%nat. fold (t 1%nat) in T1. fold (t 0%nat) in T0. fold (x 0%nat) in Z0. 
      fold (x 1%nat) in X0, X1, X2. rewrite T1, T0, Z0.
      unfold velocity_at, gradient_at, pressure_at, divergence_at, test_divergence, sym. change (pb_nu pb) with 2%nat. change (pb_np pb) with 1%nat. change (pb_dim pb) with 1%nat. cbn [sumn].
      unfold gradient_at. change (pb_nu pb) with 2%nat. cbn [sumn]. rewrite X0, X1, X2. cbn. field.
    + unfold without_means. change (pb_m1 pb) with (@None mode). change (pb_m0 pb) with (@None mode). cbn [without_mean]. unfold continuity_defect, divergence_at, gradient_at.
      change (pb_sites pb) with [mb_site]. change (pb_dim pb) with 1%nat. change (pb_nu pb) with 2%nat. change (pb_con_p pb 0) with false. cbn [suml sumn]. rewrite X0, X1. cbn. ring.
    + assert (Hd1 := Rle_abs delta). assert (Hd2 := Rle_abs (- delta)). rewrite Rabs_Ropp in Hd2.
      match goal with |- sqrt ?a < _ => replace a with (Rsqr (delta / 2)) by (unfold Rsqr; field) end.
      rewrite sqrt_Rsqr_abs. change (fp_tol_nl_iteration (pb_fp pb)) with (/ 1000000). unfold Rabs. destruct (Rcase_abs (delta / 2)); lra.
  - unfold flux, mb_ends. change (pb_dim pb) with 1%nat. cbn [suml of_pts mb_end of_n of_dof fq_JxW fq_phi fq_normal sumn]. rewrite X0, X1. split; ring.
Qed.
