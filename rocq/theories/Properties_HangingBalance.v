(** * C125: the volume balance in accepted time steps on meshes with hanging nodes, periodic boundaries and symmetry planes *)
From Coq Require Import Reals List Bool Arith ZArith Lra Lia.
From Verif Require Import Num SumR Model_Parameters Model_TimeStepping Spec_TimeStepping Proofs_TimeStepping Proofs_TimeStepping2.
From Verif Require Import Model_NonlinearSolver Properties_NonlinearSolver Model_NSOperator Properties_NSOperator.
From Verif Require Import Model_BoundaryValues Properties_BoundaryValues Model_Run Properties_Run Model_HangingRun Properties_HangingRun Properties_MassBalance.
Import ListNotations.
Open Scope R_scope.

(** ** Specification *)
Section Spec.
Context {point : Type}.
Variable h : hproblem point.
Notation pb := (h_pb h).
(** the coefficients of a conforming pressure function that is one in the part and zero elsewhere *)
Definition conforming_indicator (part : site -> bool) (Q : vec) : Prop :=
  (forall s, In s (pb_sites pb) -> sumn (pb_np pb) (fun i => Q i * st_psi s i) = if part s then 1 else 0) /\ fulfils (h_p h) Q.
Definition conserves_h (tol : R) (u : vec) : Prop :=
  (forall part Q, conforming_indicator part Q -> unaffected pb Q -> Rabs (outflow pb part u) <= tol * length_of pb Q) /\
  (forall part Q faces, conforming_indicator part Q -> unaffected pb Q -> gauss pb part faces -> Rabs (flux pb faces u) <= tol * length_of pb Q) /\
  (forall part1 part2 Q1 Q2 v1 v2, conforming_indicator part1 Q1 -> conforming_indicator part2 Q2 -> unaffected pb (fun i => v2 * Q1 i - v1 * Q2 i) ->
     Rabs (v2 * outflow pb part1 u - v1 * outflow pb part2 u) <= tol * length_of pb (fun i => v2 * Q1 i - v1 * Q2 i)).
(** the coefficients of a hanging unknown sum to one (interpolation reproduces constants), the pressure functions as well *)
Definition reproduces_constants : Prop :=
  (forall i l, h_p h i = Some l -> suml l snd = 1) /\ (forall s, In s (pb_sites pb) -> sumn (pb_np pb) (st_psi s) = 1).
End Spec.

Section Proofs.
Context {point : Type}.
Variable h : hproblem point.
Notation pb := (h_pb h).
Lemma zero_fulfils (con : lines) : fulfils con (fun _ => 0).
Proof. intros i l _. symmetry. apply suml_zero. intros. ring. Qed.
Lemma power_at_rest time dudt conv user x Q :
  virtual_power h time dudt conv user x (fun _ => 0) Q =
  sumn (pb_np pb) (fun i => snd user i * Q i) + suml (pb_sites pb) (fun s => st_JxW s * (divergence_at pb (fst x) s * sumn (pb_np pb) (fun i => Q i * st_psi s i))).
Proof.
  unfold virtual_power.
  assert (E1 : external_power h time (fun _ => 0) = 0).
  { unfold external_power. apply suml_zero. intros f _. destruct (pb_open pb (of_id f)); [|reflexivity]. apply suml_zero. intros q _.
    unfold normal_velocity. rewrite sumn_zero; [ring|]. intros d _. rewrite sumn_zero; [ring|]. intros; ring. }
  assert (Vz : forall s d, velocity_at pb (fun _ => 0) s d = 0) by (intros; unfold velocity_at; apply sumn_zero; intros; ring).
  assert (Gz : forall s d e, gradient_at pb (fun _ => 0) s d e = 0) by (intros; unfold gradient_at; apply sumn_zero; intros; ring).
  assert (E2 : inner_power h dudt conv x (fun _ => 0) = 0).
  { unfold inner_power. apply suml_zero. intros s _. unfold divergence_at at 2. rewrite (sumn_zero (pb_dim pb) (fun d => gradient_at pb (fun _ => 0) s d d)) by (intros; apply Gz).
    rewrite sumn_zero by (intros; rewrite Vz; ring).
    rewrite (sumn_zero (pb_dim pb) (fun d => sumn (pb_dim pb) (fun e => sym (gradient_at pb (fst x) s) d e * sym (gradient_at pb (fun _ => 0) s) d e))); [ring|].
    intros d _. apply sumn_zero. intros e _. unfold sym at 2. rewrite !Gz. unfold Rdiv. ring. }
  rewrite E1, E2, sumn_zero by (intros; ring). unfold volume_defect, pressure_at. ring.
Qed.
Lemma conserves_tested tol time dudt conv user (x : field) : (forall i, snd user i = 0) ->
  (forall V Q, admissible h V Q -> Rabs (virtual_power h time dudt conv user x V Q) <= tol * magnitude h V Q) -> conserves_h h tol (fst x).
Proof.
  intros Z H.
  assert (B : forall Q, fulfils (h_p h) Q -> unaffected pb Q ->
    Rabs (suml (pb_sites pb) (fun s => st_JxW s * (divergence_at pb (fst x) s * sumn (pb_np pb) (fun i => Q i * st_psi s i)))) <= tol * length_of pb Q).
  { intros Q Fq U. assert (Ad : admissible h (fun _ => 0) Q).
    { split; [apply zero_fulfils|]. split; [exact Fq|]. intros m Hm. rewrite <- (U m Hm). apply sumn_ext. intros; ring. }
    specialize (H _ _ Ad). rewrite power_at_rest in H. rewrite sumn_zero in H by (intros; rewrite Z; ring). rewrite Rplus_0_l in H.
    unfold magnitude in H. rewrite (sumn_zero (pb_nu pb)) in H by (intros; ring). rewrite Rplus_0_l in H. exact H. }
  assert (O : forall (part : site -> bool) (Q : vec), (forall s, In s (pb_sites pb) -> sumn (pb_np pb) (fun i => Q i * st_psi s i) = if part s then 1 else 0) ->
    suml (pb_sites pb) (fun s => st_JxW s * (divergence_at pb (fst x) s * sumn (pb_np pb) (fun i => Q i * st_psi s i))) = outflow pb part (fst x)).
  { intros part Q E. unfold outflow. apply suml_ext. intros s Hs. rewrite (E s Hs). destruct (part s); [unfold divergence_at, gradient_at; ring|ring]. }
  split; [|split].
  - intros part Q [E Fq] U. rewrite <- (O part Q E). apply B; assumption.
  - intros part Q faces [E Fq] U G. rewrite <- (G (fst x)), <- (O part Q E). apply B; assumption.
  - intros part1 part2 Q1 Q2 v1 v2 [E1 F1] [E2 F2] U.
    assert (Fq : fulfils (h_p h) (fun i => v2 * Q1 i - v1 * Q2 i)).
    { intros i l Hl. rewrite (F1 i l Hl), (F2 i l Hl), <- !suml_scal, <- suml_minus. apply suml_ext. intros; ring. }
    specialize (B _ Fq U). rewrite <- (O part1 Q1 E1), <- (O part2 Q2 E2).
    match type of B with Rabs ?a <= _ => match goal with |- Rabs ?b <= _ => replace b with a; [exact B|] end end.
    rewrite <- !suml_scal, <- suml_minus. apply suml_ext. intros s _.
    rewrite (sumn_ext _ (fun i => (v2 * Q1 i - v1 * Q2 i) * st_psi s i) (fun i => v2 * (Q1 i * st_psi s i) - v1 * (Q2 i * st_psi s i))) by (intros; ring).
    rewrite sumn_minus, !sumn_scal. ring.
Qed.
Lemma whole_domain : reproduces_constants h -> conforming_indicator h everything (fun _ => 1).
Proof.
  intros [L P]. split.
  - intros s Hs. transitivity (sumn (pb_np pb) (st_psi s)); [apply sumn_ext; intros; ring|apply P, Hs].
  - intros i l Hl. transitivity (suml l snd); [symmetry; apply (L i l Hl)|apply suml_ext; intros; ring].
Qed.
End Proofs.

Section Theorems.
Context {point : Type}.
Variable h : hproblem point.
Variable env : nat -> environment.
Variable s0 : state.
Variable p : ts_params RNum.
Notation pb := (h_pb h).
Notation x := (fun k => r_sol (run_h h env k s0)).
Notation t := (fun k => now (r_clock (run_h h env k s0))).

(** every step of the implicit formulations that reports success conserves volume in every part that conforming pressures resolve; without
    pressure modes in particular in the whole domain *)
Theorem C125_constrained :
  r_clock s0 = ts_init p -> well_posed p -> (tp_scheme p = bdf_2 \/ tp_scheme p = implicit_euler) ->
  fp_physical_type (pb_fp pb) = incompressible -> iterated (fp_linearization (pb_fp pb)) = true ->
  (0 < fp_max_nl_iteration (pb_fp pb) < 4294967296)%Z -> level_is_force_free h ->
  closed (h_u h) -> closed (h_p h) -> in_range h -> fulfils (h_p h) (snd (r_sol s0)) -> fulfils (h_p h) (snd (r_old s0)) ->
  (forall k i, snd (e_user (env k)) i = 0) ->
  exists n, at_end (r_clock (run_h h env n s0)) = true /\ t n = tp_end p /\
    forall k, (1 <= k <= n)%nat -> report_h h env (k - 1) s0 <> (0, 0)%Z ->
      conserves_h h (fp_tol_nl_iteration (pb_fp pb)) (fst (x k)) /\
      (reproduces_constants h -> pb_m0 pb = None -> pb_m1 pb = None ->
       forall faces, gauss pb everything faces -> Rabs (flux pb faces (fst (x k))) <= fp_tol_nl_iteration (pb_fp pb) * sqrt (INR (pb_np pb))).
Proof.
  intros H0 W Hs Hty Hi Hmax F Cu Cp Rg Q1 Q2 Z.
  destruct (C127_constrained_run h env s0 p H0 W Hs Hty Hi Hmax F Cu Cp Rg Q1 Q2) as (n & He & _ & _ & _ & Hn & Hk).
  exists n. split; [exact He|]. split; [exact Hn|]. intros k K Rep. destruct (Hk k K) as (_ & _ & _ & _ & delta & _ & A & _). specialize (A Rep).
  assert (C := conserves_tested h _ _ _ _ _ _ (Z (k - 1)%nat) A). split; [exact C|].
  intros Rc M0 M1 faces G. destruct C as (_ & C & _).
  assert (U : unaffected pb (fun _ => 1)) by (intros m [Hm|Hm]; [rewrite M0 in Hm|rewrite M1 in Hm]; discriminate Hm).
  specialize (C _ _ faces (whole_domain h Rc) U G). unfold length_of in C.
  replace (sumn (pb_np pb) (fun _ => 1 ^ 2)) with (INR (pb_np pb)) in C; [exact C|].
  generalize (pb_np pb). intros m. induction m as [|m IH]; [reflexivity|]. rewrite S_INR, IH. cbn [sumn]. ring.
Qed.

Theorem C125_constrained_linearized :
  r_clock s0 = ts_init p -> well_posed p -> (tp_scheme p = bdf_2 \/ tp_scheme p = implicit_euler) ->
  fp_physical_type (pb_fp pb) = incompressible -> linearized (fp_linearization (pb_fp pb)) = true ->
  (0 < fp_max_nl_iteration (pb_fp pb))%Z -> level_is_force_free h ->
  closed (h_u h) -> closed (h_p h) -> in_range h -> fulfils (h_p h) (snd (r_sol s0)) -> fulfils (h_p h) (snd (r_old s0)) ->
  (forall k i, snd (e_user (env k)) i = 0) ->
  exists n, at_end (r_clock (run_h h env n s0)) = true /\ t n = tp_end p /\
    forall k, (1 <= k <= n)%nat -> (Z.of_nat k <= 4294967296)%Z -> reliable_h h (env (k - 1)%nat) (run_h h env (k - 1) s0) ->
      conserves_h h (linear_bound (pb_fp pb)) (fst (x k)).
Proof.
  intros H0 W Hs Hty Hi Hmax F Cu Cp Rg Q1 Q2 Z.
  destruct (C127_constrained_linearized h env s0 p H0 W Hs Hty Hi Hmax F Cu Cp Rg Q1 Q2) as (n & He & _ & _ & Hn & Hk).
  exists n. split; [exact He|]. split; [exact Hn|]. intros k K Lk Rel. destruct (Hk k K) as (_ & _ & _ & _ & E).
  destruct (E Lk Rel) as (delta & _ & A). exact (conserves_tested h _ _ _ _ _ _ (Z (k - 1)%nat) A).
Qed.
End Theorems.
Print Assumptions C125_constrained.
Print Assumptions C125_constrained_linearized.

(** ** The hypotheses of C125_constrained are met: inflow 1, open outlet, the second pressure unknown tied to the first; the step is accepted *)
Definition hb_site : site := MkSite 1 (fun _ _ => 1 / 2) (fun j _ _ => if Nat.eqb j 0 then -1 else 1) (fun _ => 1 / 2) 1 1 0.
Definition hb_lines_p : lines := fun i => if Nat.eqb i 1 then Some [(0%nat, 1)] else None.
Definition hb_pb : problem unit :=
  MkProblem (ex_fp coupled_implicit_picard) 1 2 2 [hb_site] (MkConditions (fun id => if Nat.eqb id 5 then Some (fun _ _ _ => 1) else None) (fun _ => false))
    [MkBFace 5%nat [(0%nat, tt, 0%nat)]] (fun _ => None) [mb_end 6 1 1] (fun _ => false) None None false.
Definition hb_h : hproblem unit := MkHanging hb_pb (fun _ => None) hb_lines_p.
Definition hb_update : field := (fun i => if Nat.eqb i 0 then 7 else 1, fun i => if Nat.eqb i 0 then - 5 / 2 else 9).
Definition hb_krylov : Z -> R -> field -> nat -> krylov (N:=RNum) field := fun _ _ _ _ => MkKrylov (N:=RNum) field 1%Z 0 hb_update true.
Definition hb_env : environment :=
  MkEnv hb_krylov hb_krylov (fun _ => MkKrylov (N:=RNum) field 0%Z 0 field_zero false) (fun _ => 0) (fun i => if Nat.eqb i 0 then 0 else 3, fun _ => 0).
Lemma hb_x1 : let x1 := r_sol (run_h hb_h (fun _ => hb_env) 1 ex_s0) in fst x1 0%nat = 1 /\ fst x1 1%nat = 1 /\ snd x1 0%nat = - 5 / 2 /\ snd x1 1%nat = - 5 / 2.
Proof.
  intros x1.
  assert (G : exists g : field, x1 = field_add g (distribute_update_h hb_h hb_update) /\ fst g 0%nat = 1 /\ fst g 1%nat = 0 /\ snd g 0%nat = 0 /\ snd g 1%nat = 0).
  { eexists. unfold x1. clear x1. cbn [run_h]. unfold advance_time_step_h, evaluate_time_step, solve_nonlinear_system. cbn [fst r_sol r_solution ex_s0].
    unfold shift_pressure_h. change (pb_fix (h_pb hb_h)) with false. cbv iota.
    change (Z.to_nat (fp_max_nl_iteration (pb_fp (h_pb hb_h)))) with 1%nat. cbn [nl_loop]. cbv zeta.
    assert (U : forall tol call, l_update field (solve_system field field_zero (oracles_h hb_h hb_env (init_time_advance_h hb_h ex_s0)) (ex_fp coupled_implicit_picard) tol call)
              = distribute_update_h hb_h hb_update).
    { intros tol call. unfold solve_system. cbn. reflexivity. }
    split.
    - change (fp_linearization (pb_fp (h_pb hb_h))) with coupled_implicit_picard. cbn [is_implicit negb].
      destruct (nltb _ _); cbn [ls_solution]; apply (f_equal (field_add _)); exact (U _ _).
    - cbn [ls_solution init_time_advance_h r_sol fst snd ex_s0 r_clock]. unfold apply_boundary_conditions_u, distribute. cbn.
      unfold extrapolate. rnum. repeat split; ring. }
  destruct G as (g & -> & G0 & G1 & G2 & G3). cbn. rewrite G0, G1, G2, G3. repeat split; lra.
Qed.
Lemma hb_closed : closed hb_lines_p.
Proof. intros i l m w H Hin. unfold hb_lines_p in H. destruct (Nat.eqb i 1); [|discriminate H]. injection H as <-. destruct Hin as [E|[]]; injection E as <- <-; reflexivity. Qed.
Lemma hb_range : in_range hb_h.
Proof.
  split; [|split].
  - intros [|[|i]] mw Hi Hin; cbn in Hi, Hin; try lia; try destruct Hin as [<-|[]]; try contradiction; cbn; lia.
  - intros [|[|i]] mw Hi Hin; cbn in Hi, Hin; try lia; destruct Hin as [<-|[]]; cbn; lia.
  - intros f a [<-|[]] _. cbn. lia.
Qed.
Lemma hb_power delta v : let x k := r_sol (run_h hb_h (fun _ => hb_env) k ex_s0) in let t k := now (r_clock (run_h hb_h (fun _ => hb_env) k ex_s0)) in
  forall V, V 0%nat = 0 -> V 1%nat = v ->
  virtual_power hb_h (t 1%nat) (derivative hb_pb implicit_euler 1 t x delta) (convective hb_pb 1 t x) (e_user hb_env) (x 1%nat) V (fun _ => 0) = - (delta / 2) * v.
Proof.
  intros x t V V0 V1. destruct hb_x1 as (X0 & X1 & X2 & X3). fold (x 1%nat) in X0, X1, X2, X3.
  assert (T1 : t 1%nat = 1) by exact ex_time. assert (T0 : t 0%nat = 0) by reflexivity. assert (Z0 : fst (x 0%nat) = fun _ => 0) by reflexivity.
  assert (Cv : convective hb_pb 1 t x hb_site 0 = 0).
  { unfold convective. change (fp_linearization (pb_fp hb_pb)) with coupled_implicit_picard. cbv iota. unfold transport, divergence_at, gradient_at, velocity_at.
    change (pb_nu hb_pb) with 2%nat. change (pb_dim hb_pb) with 1%nat. change (fp_beta (pb_fp hb_pb)) with 0. cbn [sumn]. rewrite X0, X1. cbn. field. }
  unfold virtual_power, external_power, inner_power, volume_defect. change (h_pb hb_h) with hb_pb. change (pb_sites hb_pb) with [hb_site].
  change (pb_ofaces hb_pb) with [mb_end 6 1 1]. change (pb_dim hb_pb) with 1%nat. cbn [suml sumn]. rewrite Cv.
  unfold derivative, difference, lead, three_levels. cbn [scheme_eqb andb]. change (1 - 1)%nat with 0%nat. rewrite T1, T0, Z0.
  unfold sym, divergence_at, gradient_at, velocity_at, pressure_at. change (pb_nu hb_pb) with 2%nat. change (pb_np hb_pb) with 2%nat. change (pb_dim hb_pb) with 1%nat. cbn [sumn].
  unfold gradient_at. change (pb_nu hb_pb) with 2%nat. cbn [sumn]. change (pb_open hb_pb (of_id (mb_end 6 1 1))) with (@None (R -> unit -> R)). cbv iota.
  rewrite X0, X1, X2, X3, V0, V1. cbn. field.
Qed.
Example C125_constrained_nonvacuous :
  r_clock ex_s0 = ts_init ex_p /\ well_posed ex_p /\ level_is_force_free hb_h /\ closed (h_u hb_h) /\ closed (h_p hb_h) /\ in_range hb_h /\
  fulfils (h_p hb_h) (snd (r_sol ex_s0)) /\ fulfils (h_p hb_h) (snd (r_old ex_s0)) /\ (forall k i, snd (e_user ((fun _ : nat => hb_env) k)) i = 0) /\
  report_h hb_h (fun _ => hb_env) 0 ex_s0 <> (0, 0)%Z /\ reproduces_constants hb_h /\ gauss hb_pb everything mb_ends /\
  flux hb_pb [mb_end 6 1 1] (fst (r_sol (run_h hb_h (fun _ => hb_env) 1 ex_s0))) = 1.
Proof.
  assert (W : well_posed ex_p) by (unfold well_posed; cbn; rnum; lra). assert (F : level_is_force_free hb_h) by (intros m V Hf; discriminate Hf).
  assert (Fz : fulfils hb_lines_p (fun _ => 0)) by apply zero_fulfils.
  assert (Ad : forall v, admissible hb_h (fun i => if Nat.eqb i 1 then v else 0) (fun _ => 0)).
  { intros v. split; [|split].
    - intros [|[|i]] l Hl; cbn in Hl; [injection Hl as <-; reflexivity|discriminate Hl|discriminate Hl].
    - exact Fz.
    - intros m [Hm|Hm]; discriminate Hm. }
  destruct hb_x1 as (X0 & X1 & X2 & X3).
  split; [reflexivity|]. split; [exact W|]. split; [exact F|]. split; [intros i l m w Hl; discriminate Hl|]. split; [exact hb_closed|]. split; [exact hb_range|].
  split; [exact Fz|]. split; [exact Fz|]. split; [reflexivity|].
  split; [|split; [|split]].
  2: { split.
       - intros i l Hl. cbn in Hl. unfold hb_lines_p in Hl. destruct (Nat.eqb i 1); [|discriminate Hl]. injection Hl as <-. cbn. ring.
       - intros s [<-|[]]. change (pb_np (h_pb hb_h)) with 2%nat. cbn. field. }
  2: { intros u. unfold outflow, flux. change (pb_sites hb_pb) with [hb_site]. change (pb_dim hb_pb) with 1%nat. change (pb_nu hb_pb) with 2%nat. cbn. ring. }
  2: { unfold flux. change (pb_dim hb_pb) with 1%nat. cbn [suml of_pts mb_end of_n of_dof fq_JxW fq_phi fq_normal sumn]. rewrite X1. ring. }
  set (s1 := init_time_advance_h hb_h ex_s0). set (x1 := r_sol (run_h hb_h (fun _ => hb_env) 1 ex_s0)) in *.
  assert (Small : compute_residual_h hb_h (r_clock s1) (e_user hb_env) (r_old s1) (r_oo s1) x1 < / 1000000).
  { destruct (plain_loop_terminates ex_p ltac:(apply W) ltac:(apply W) ltac:(apply W)) as (n & _ & He & Hz & Hk).
    assert (L : (1 <= n)%nat). { destruct n; [|lia]. exfalso. cbn in Hz. rnum. lra. }
    destruct (step_terms_h hb_h (fun _ => hb_env) ex_s0 ex_p 0 eq_refl W (or_intror eq_refl) ltac:(intros; apply Hk; lia) (or_introl eq_refl)) as (Ht & delta & Hd & E).
    destruct (E (fst x1) eq_refl) as [E1 E2]. clear E.
    set (r := system_rhs_h hb_h (r_clock s1) (e_user hb_env) (r_old s1) (r_oo s1) x1).
    assert (T := residual_tested hb_h (r_clock s1) (e_user hb_env) (r_old s1) (r_oo s1) x1 _ _ Ht eq_refl eq_refl hb_range (Ad (fst r 1%nat))).
    cbv zeta in T. fold r in T. change (h_pb hb_h) with hb_pb in T, E1, E2.
    change (r_old s1) with (r_sol (run_h hb_h (fun _ => hb_env) 0 ex_s0)) in T. change (r_oo s1) with (r_old (run_h hb_h (fun _ => hb_env) 0 ex_s0)) in T.
    change (r_clock s1) with (r_clock (run_h hb_h (fun _ => hb_env) 1 ex_s0)) in T. rewrite E1, E2 in T.
    assert (T2 := eq_trans T (hb_power delta (fst r 1%nat) (fun i => if Nat.eqb i 1 then fst r 1%nat else 0) eq_refl eq_refl)). clear T. rename T2 into T.
    change (pb_nu hb_pb) with 2%nat in T. change (pb_np hb_pb) with 2%nat in T. cbn [sumn Nat.eqb] in T.
    assert (K0 : forall tm g, const_rhs_h hb_h tm g = 0).
    { intros tm g. unfold const_rhs_h, const_rhs. cbn. repeat match goal with |- context [if ?b then _ else _] => destruct b end; ring. }
    assert (R0 : fst r 0%nat = 0). { cbn -[cell_terms const_rhs_h]. rewrite K0. lra. }
    assert (P : forall i, snd r i = 0).
    { intros i. unfold r, system_rhs_h. cbn [snd]. unfold average_projection. change (pb_m0 (h_pb hb_h)) with (@None mode). change (pb_m1 (h_pb hb_h)) with (@None mode).
      assert (K : forall j, condense (pb_np (h_pb hb_h)) (h_p hb_h) (snd (cell_terms hb_h (r_clock s1) (r_old s1) (r_oo s1) x1)) j = 0).
      { intros j. unfold condense. apply sumn_zero. intros k _. apply suml_zero. intros mw _. destruct (Nat.eqb (fst mw) j); [|reflexivity].
        unfold cell_terms. destruct (system_rhs_form (without_constraints (h_pb hb_h)) (r_clock s1) field_zero (r_old s1) (r_oo s1) x1 Ht eq_refl eq_refl) as [_ B]. rewrite B.
        unfold without_means. cbn [without_constraints pb_m0 pb_m1 without_mean]. unfold continuity_defect, divergence_at, gradient_at.
        change (pb_sites (without_constraints (h_pb hb_h))) with [hb_site]. change (pb_dim (without_constraints (h_pb hb_h))) with 1%nat. change (pb_nu (without_constraints (h_pb hb_h))) with 2%nat.
        cbn [pb_con_p suml sumn]. rewrite X0, X1. cbn. ring. }
      destruct (_ && _); cbn [project_mode]; rewrite K; cbn; ring. }
    unfold compute_residual_h. rewrite norm_of_parts. fold r. change (pb_nu (h_pb hb_h)) with 2%nat. change (pb_np (h_pb hb_h)) with 2%nat. cbn [sumn].
    rewrite R0, !P in *. set (a := fst r 1%nat) in *. clearbody a. clear - T Hd.
    assert (Ha : a = 0 \/ a = - (delta / 2)).
    { destruct (Req_dec a 0) as [->|Na]; [left; reflexivity|right]. apply Rmult_eq_reg_r with a; [|exact Na]. lra. }
    match goal with |- sqrt ?e < _ => replace e with (Rsqr a) by (unfold Rsqr; ring) end. rewrite sqrt_Rsqr_abs.
    assert (Hd1 := Rle_abs delta). assert (Hd2 := Rle_abs (- delta)). rewrite Rabs_Ropp in Hd2.
    destruct Ha as [->| ->]; [rewrite Rabs_R0; lra|]. unfold Rabs. destruct (Rcase_abs _); lra. }
  unfold report_h, advance_time_step_h, evaluate_time_step, solve_nonlinear_system. cbn [snd r_outcome run_h]. fold s1.
  match goal with |- context [nl_loop field field_add field_zero ?n ?o ?f ?q ?k ?l] =>
    destruct (loop_implicit field_add field_zero o f q k eq_refl n l ltac:(cbn; lia)) as [A B]; set (s2 := nl_loop field field_add field_zero n o f q k l) in * end.
  assert (Ex : ls_solution field s2 = x1).
  { unfold x1. cbn [run_h]. unfold advance_time_step_h, evaluate_time_step, solve_nonlinear_system. cbn [fst r_sol r_solution]. fold s1. unfold shift_pressure_h.
    change (pb_fix (h_pb hb_h)) with false. cbv iota. reflexivity. }
  cbn [oracles_h o_residual] in A. rewrite Ex in A. rewrite <- A in Small.
  change (nltb (n:=RNum) (ls_res field s2) (fp_tol_nl_iteration (pb_fp (h_pb hb_h)))) with (Rltb (ls_res field s2) (/ 1000000)) in B.
  destruct (Rltb_spec (ls_res field s2) (/ 1000000)) as [_|Q]; [|exfalso; apply Q, Small].
  cbn [ls_step] in B. change (Z.to_nat (fp_max_nl_iteration (pb_fp (h_pb hb_h)))) with 1%nat in B. change (fp_max_nl_iteration (pb_fp (h_pb hb_h))) with 1%Z.
  assert (E : ls_step field s2 = 0%Z) by lia. rewrite E. cbn. discriminate.
Qed.
