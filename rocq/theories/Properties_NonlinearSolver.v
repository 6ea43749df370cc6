(** * Property theorems C19 - C22, C53, C54: nonlinear and linear solver control

    [oracles] are arbitrary linear solvers and residuals.  The trace lists the observable actions in
    order: preconditioner builds, linear solves, residual evaluations. *)
From Coq Require Import ZArith QArith Reals Bool List String Lia Lra.
From Verif Require Import Num Model_TimeStepping Model_Parameters Model_NonlinearSolver.
Import ListNotations.
Open Scope Z_scope.

(** ** Specification *)
Section Spec.
Context {N : Num} {V : Type}.
Fixpoint n_solves (tr : list (@nl_event N V)) : Z :=
  match tr with
  | [] => 0
  | LinearSolve _ _ _ :: t => 1 + n_solves t
  | _ :: t => n_solves t
  end.
Fixpoint n_linear (tr : list (@nl_event N V)) : Z :=
  match tr with
  | [] => 0
  | LinearSolve _ _ r :: t => l_iterations V r + n_linear t
  | _ :: t => n_linear t
  end.
Fixpoint accumulate (vadd : V -> V -> V) (x : V) (tr : list (@nl_event N V)) : V :=
  match tr with
  | [] => x
  | LinearSolve _ _ r :: t => accumulate vadd (vadd x (l_update V r)) t
  | _ :: t => accumulate vadd x t
  end.
Definition below (tol : N) (e : @nl_event N V) : bool :=
  match e with Residual _ _ res => nltb res tol | _ => false end.
End Spec.

(** ** Auxiliary *)
Section Aux.
Context {N : Num} {V : Type} (vadd : V -> V -> V) (vzero : V).
Implicit Types tr : list (@nl_event N V).
Lemma n_solves_app a b : n_solves (N:=N) (V:=V) (a ++ b) = n_solves a + n_solves b.
Proof. induction a as [|[] a IH]; cbn [n_solves app]; lia. Qed.
Lemma n_linear_app a b : n_linear (N:=N) (V:=V) (a ++ b) = n_linear a + n_linear b.
Proof. induction a as [|[] a IH]; cbn [n_linear app]; lia. Qed.
Lemma accumulate_app x a b : accumulate (N:=N) vadd x (a ++ b) = accumulate vadd (accumulate vadd x a) b.
Proof. revert x; induction a as [|e a IH]; intros x; [|destruct e]; cbn; auto. Qed.
Lemma n_solves_nonneg tr : 0 <= n_solves tr.
Proof. induction tr as [|[] tr IH]; cbn [n_solves]; lia. Qed.
Lemma u32_add a b : u32 (u32 a + b) = u32 (a + b).
Proof. unfold u32. apply Zplus_mod_idemp_l. Qed.
Lemma u32_add_r a b : u32 (a + u32 b) = u32 (a + b).
Proof. unfold u32. apply Zplus_mod_idemp_r. Qed.

Variables (o : oracles (N:=N) V) (fp : flow_params N) (ps : prec_state) (step_no : Z).
Notation loop := (nl_loop V vadd vzero).
Notation tol := (fp_tol_nl_iteration fp).
Lemma loop_inv fuel : forall s, ls_broke V s = false ->
  let s' := loop fuel o fp ps step_no s in
  exists new, ls_trace V s' = (ls_trace V s ++ new)%list /\
    n_solves new <= Z.of_nat fuel /\
    u32 (ls_n_tot V s') = u32 (ls_n_tot V s + n_linear new) /\
    ls_solution V s' = accumulate vadd (ls_solution V s) new /\
    (forall x res, In (Residual V x res) new -> res = o_residual V o x) /\
    (ls_broke V s' = true -> ls_step V s' + 1 = ls_step V s + n_solves new /\ 1 <= n_solves new /\
       ls_n_tot V s' = u32 (ls_n_tot V s') /\
       (is_implicit (fp_linearization fp) = true -> exists pre x res,
          new = (pre ++ [Residual V x res])%list /\ nltb res tol = true /\ x = ls_solution V s' /\
          existsb (below tol) pre = false) /\
       (is_implicit (fp_linearization fp) = false -> n_solves new = 1)) /\
    (ls_broke V s' = false -> ls_step V s' = ls_step V s + n_solves new /\ n_solves new = Z.of_nat fuel /\
       (is_implicit (fp_linearization fp) = true \/ fuel = O) /\ existsb (below tol) new = false).
Proof.
  induction fuel as [|fuel IH]; intros s Hs; cbn [nl_loop].
  { exists []. cbn [n_solves n_linear accumulate existsb]. rewrite app_nil_r. cbv zeta. rewrite Hs, !Z.add_0_r.
    split; [auto|]. split; [lia|]. split; [auto|]. split; [auto|]. split; [intros ? ? []|].
    split; [discriminate|]. intros _. split; [lia|]. split; [lia|]. auto. }
  set (b := build_decision _ _ _ _ _ _). set (r := solve_system _ _ _ _ _ _).
  set (bl := if b =? 0 then [] else [BuildPreconditioner V]).
  set (tl := linear_tolerance fp (ls_res V s)).
  assert (Bl : n_solves (N:=N) bl = 0 /\ n_linear (N:=N) bl = 0 /\ existsb (below (N:=N) tol) bl = false /\
               (forall y, accumulate vadd y bl = y) /\ (forall x res, ~ In (Residual V x res) bl)).
  { unfold bl. destruct (b =? 0); cbn; repeat split; auto. intros x res [H|[]]; discriminate H. }
  destruct Bl as (B1 & B2 & B3 & B4 & B5).
  destruct (is_implicit (fp_linearization fp)) eqn:Im; cbn [negb].
  - cbv zeta. set (x := vadd (ls_solution V s) (l_update V r)).
    destruct (nltb (o_residual V o x) tol) eqn:C.
    + exists (bl ++ [LinearSolve V tl r] ++ [Residual V x (o_residual V o x)])%list. cbn [ls_trace ls_n_tot ls_solution ls_broke ls_step].
      rewrite <- !app_assoc. split; [reflexivity|].
      rewrite !n_solves_app, !n_linear_app, B1, B2. cbn [n_solves n_linear app].
      split; [lia|]. split; [rewrite <- u32_add_r; unfold u32; rewrite ?Zmod_mod, ?Zplus_mod_idemp_r; f_equal; lia|].
      split; [rewrite accumulate_app, B4; reflexivity|].
      split. { intros y res H. apply in_app_or in H as [H|H]; [destruct (B5 _ _ H)|]. destruct H as [H|[H|[]]]; [discriminate H|]. injection H as <- <-; auto. }
      split; [|discriminate]. intros _. split; [lia|]. split; [lia|]. split; [unfold u32; rewrite Zmod_mod; auto|].
      split; [|discriminate]. intros _. exists (bl ++ [LinearSolve V tl r])%list, x, (o_residual V o x).
      rewrite <- app_assoc. split; auto. split; auto. split; auto. rewrite existsb_app, B3. reflexivity.
    + match goal with |- context [nl_loop _ _ _ fuel _ _ _ _ ?s1] => destruct (IH s1 eq_refl) as (new & T1 & T2 & T3 & T4 & T5 & T6 & T7) end.
      cbn [ls_trace ls_n_tot ls_solution ls_broke ls_step] in *.
      exists ((bl ++ [LinearSolve V tl r; Residual V x (o_residual V o x)]) ++ new)%list.
      rewrite T1. split; [rewrite <- !app_assoc; reflexivity|].
      rewrite !n_solves_app, !n_linear_app, B1, B2. cbn [n_solves n_linear].
      split; [lia|]. split; [rewrite T3; rewrite u32_add; f_equal; lia|].
      split; [rewrite T4, !accumulate_app, B4; reflexivity|].
      split. { intros y res H. apply in_app_or in H as [H|H]; [|eauto]. apply in_app_or in H as [H|H]; [destruct (B5 _ _ H)|]. destruct H as [H|[H|[]]]; [discriminate H|]. injection H as <- <-; auto. }
      split.
      * intros E. destruct (T6 E) as (U1 & U2 & U3 & U4 & U5). split; [lia|]. split; [lia|]. split; [auto|]. split; [|discriminate].
        intros _. destruct (U4 eq_refl) as (pre & y & res & -> & P1 & P2 & P3).
        exists (bl ++ [LinearSolve V tl r; Residual V x (o_residual V o x)] ++ pre)%list, y, res.
        split; [rewrite <- !app_assoc; reflexivity|]. split; auto. split; auto.
        rewrite existsb_app, B3. cbn. rewrite C. exact P3.
      * intros E. destruct (T7 E) as (U1 & U2 & U3 & U4). split; [lia|]. split; [lia|]. split; [auto|].
        rewrite !existsb_app, B3, U4. cbn. rewrite C. reflexivity.
  - exists (bl ++ [LinearSolve V tl r])%list. cbn [ls_trace ls_n_tot ls_solution ls_broke ls_step].
    rewrite <- ?app_assoc. split; [reflexivity|]. rewrite !n_solves_app, !n_linear_app, B1, B2. cbn [n_solves n_linear].
    split; [lia|]. split; [unfold u32; rewrite Zmod_mod; f_equal; lia|].
    split; [rewrite accumulate_app, B4; reflexivity|].
    split. { intros y res H. apply in_app_or in H as [H|H]; [destruct (B5 _ _ H)|]. destruct H as [H|[]]; discriminate H. }
    split; [|discriminate]. intros _. split; [lia|]. split; [lia|]. split; [unfold u32; rewrite Zmod_mod; auto|].
    split; [discriminate|]. intros _; lia.
Qed.
End Aux.

(** ** C19 *)
(** spec: the formulations that need a nonlinear iteration (the convective term is linear in the new velocity for the others) *)
Definition iterated (l : linearization) : bool :=
  match l with
  | coupled_implicit_newton => true
  | coupled_implicit_picard => true
  | coupled_velocity_semi_implicit | coupled_velocity_explicit | projection => false
  end.
Lemma iterated_is l : is_implicit l = iterated l.
Proof. destruct l; reflexivity. Qed.
Theorem C19_bounded_and_honest :
  forall (N : Num) (V : Type) (vadd : V -> V -> V) (vzero : V) (o : oracles (N:=N) V) (shift : V -> V)
         (fp : flow_params N) (ps : prec_state) (step_no : Z) (x0 : V) (initial_residual : N),
    0 <= fp_max_nl_iteration fp < 4294967296 ->
    let r := solve_nonlinear_system V vadd vzero o shift fp ps step_no x0 initial_residual in
    let tr := r_trace V r in
    let tol := fp_tol_nl_iteration fp in
    let implicit := iterated (fp_linearization fp) in
    n_solves tr <= fp_max_nl_iteration fp /\
    (forall x res, In (Residual V x res) tr -> res = o_residual V o x) /\
    r_solution V r = shift (accumulate vadd x0 tr) /\
    match r_outcome V r with
    | inl (nonlinear, linear) =>
        nonlinear = n_solves tr /\ 1 <= nonlinear /\ linear = (n_linear tr) mod 4294967296 /\
        (implicit = false -> nonlinear = 1) /\
        (implicit = true -> exists pre res,
            tr = (pre ++ [Residual V (accumulate vadd x0 tr) res])%list /\ nltb res tol = true /\
            existsb (below tol) pre = false)
    | inr _ =>
        n_solves tr = fp_max_nl_iteration fp /\ (implicit = true \/ fp_max_nl_iteration fp = 0) /\
        existsb (below tol) tr = false
    end.
Proof.
  intros N V vadd vzero o shift fp ps step_no x0 r0 Hm. cbv zeta. unfold solve_nonlinear_system.
  cbn [r_trace r_solution r_outcome].
  destruct (loop_inv vadd vzero o fp ps step_no (Z.to_nat (fp_max_nl_iteration fp))
              (MkLoop V 0 x0 r0 0 false [] false) eq_refl) as (new & T1 & T2 & T3 & T4 & T5 & T6 & T7).
  cbn [ls_trace ls_n_tot ls_solution ls_step app] in *.
  set (s' := nl_loop V vadd vzero _ _ _ _ _ _) in *. rewrite T1, T4.
  rewrite Z2Nat.id in * by lia.
  split; [auto|]. split; [auto|]. split; [auto|].
  destruct (ls_broke V s') eqn:B.
  - destruct (T6 eq_refl) as (U1 & U2 & U3 & U4 & U5).
    destruct (Z.ltb_spec (ls_step V s') (fp_max_nl_iteration fp)) as [L|L]; [|exfalso; lia].
    replace (u32 (ls_step V s' + 1)) with (ls_step V s' + 1) by (unfold u32; rewrite Z.mod_small; lia).
    split; [lia|]. split; [lia|]. split; [rewrite U3, T3; reflexivity|].
    split; [intros E; specialize (U5 E); lia|].
    intros E. destruct (U4 E) as (pre & x & res & -> & P1 & P2 & P3).
    exists pre, res. rewrite <- T4, <- P2. auto.
  - destruct (T7 eq_refl) as (U1 & U2 & U3 & U4).
    destruct (Z.ltb_spec (ls_step V s') (fp_max_nl_iteration fp)) as [L|L]; [exfalso; lia|].
    split; [auto|]. split; [|auto]. destruct U3 as [?|E]; auto. right. lia.
Qed.
Print Assumptions C19_bounded_and_honest.

(** evaluate_time_step()/advance_time_step() never throw this exception; the pair (0,0) is returned
    exactly in the case of no convergence. *)
Theorem C19_failure_is_reported_as_zero :
  forall (N : Num) (V : Type) (vadd : V -> V -> V) (vzero : V) (o : oracles (N:=N) V) (shift : V -> V)
         (fp : flow_params N) (ps : prec_state) (step_no : Z) (x0 : V),
    0 <= fp_max_nl_iteration fp < 4294967296 ->
    let '(r, it) := evaluate_time_step V vadd vzero o shift fp ps step_no x0 in
    (fst it = 0 <-> r_outcome V r = inr tt) /\ (fst it = 0 -> snd it = 0).
Proof.
  intros N V vadd vzero o shift fp ps step_no x0 Hm. unfold evaluate_time_step.
  pose proof (C19_bounded_and_honest N V vadd vzero o shift fp ps step_no x0 (o_residual V o x0) Hm) as H.
  cbv zeta in H. destruct H as (_ & _ & _ & H).
  destruct (r_outcome V _) as [[a b]|[]]; cbn.
  - destruct H as (H1 & H2 & _). split; [split; [lia|discriminate]|lia].
  - split; [split; auto|auto].
Qed.
Print Assumptions C19_failure_is_reported_as_zero.

(** concrete oracle: the residual halves in each step; integers as vectors (number of updates) *)
Definition ex_fp : flow_params FNum :=
  match construct (fun _ => Some (Some [("Navier-Stokes/Solver/NL max iterations"%string, VInt 3)])) "a.prm" with
  | Ok fp => fp | Err _ => (* not reached *) MkFP (N:=FNum) 0 0 0 false false stokes (Fof_Z 0) 0 false (Fof_Z 0) (Fof_Z 0) (Fof_Z 0) (Fof_Z 0) 0 (Fof_Z 0) projection 0 (Fof_Z 0) false u_amg p_mass_ilu 0 "" 0 (Fof_Z 0) 0 false false bdf_2 (Fof_Z 0) (Fof_Z 0) (Fof_Z 0) (Fof_Z 0) (Fof_Z 0) (Fof_Z 0) (Fof_Z 0) (Fof_Z 0) (Fof_Z 0) (Fof_Z 0) (Fof_Z 0) (Fof_Z 0) (Fof_Z 0) (Fof_Z 0) (Fof_Z 0) false 0 0 false false false false false 0 0 false
  end.
Definition ex_oracle (good : Z) : oracles (N:=FNum) Z := MkOracles (N:=FNum) Z
  (fun b tol g call => MkKrylov (N:=FNum) Z 5 (Fof_Q (1#1000)) 1 true)
  (fun b tol g call => MkKrylov (N:=FNum) Z 7 (Fof_Q (1#1000)) 1 true)
  (fun call => MkKrylov (N:=FNum) Z 5 (Fof_Q (1#1000)) 1 true) (fun x => x)
  (fun x => if good <=? x then Fof_Q (1 # 100000000) else Fof_Z 1).
Definition ex_prec := MkPrec 0 0 true 0.
Example C19_nonvacuous_converged :
  match r_outcome Z (solve_nonlinear_system Z Z.add 0 (ex_oracle 2) (fun x => x) ex_fp ex_prec 1 0 (Fof_Z 1)) with
  | inl (2, 10) => true | _ => false end = true.
Proof. vm_compute. reflexivity. Qed.
Example C19_nonvacuous_failed :
  match r_outcome Z (solve_nonlinear_system Z Z.add 0 (ex_oracle 4) (fun x => x) ex_fp ex_prec 1 0 (Fof_Z 1)) with
  | inr _ => true | _ => false end = true.
Proof. vm_compute. reflexivity. Qed.

(** ** C20 *)
(** contract of deal.II's SolverControl: never more iterations than allowed *)
Definition respects_budget {N : Num} {V} (o : oracles (N:=N) V) : Prop :=
  (forall b tol g c, 0 <= k_steps V (o_cheap V o b tol g c) <= Z.max b 0) /\
  (forall b tol g c, 0 <= k_steps V (o_strong V o b tol g c) <= Z.max b 0).

Lemma budget_strong_le N (fp : flow_params N) :
  0 <= fp_max_lin_iteration fp < 4294967296 -> 0 <= fp_iterations_before_inner_solvers fp < fp_max_lin_iteration fp ->
  budget_strong fp <= fp_max_lin_iteration fp - fp_iterations_before_inner_solvers fp.
Proof.
  intros Hm Hi. unfold budget_strong, to_int, u32. cbv zeta.
  rewrite (Z.mod_small (fp_max_lin_iteration fp)), (Z.mod_small (fp_iterations_before_inner_solvers fp)) by lia.
  set (M := fp_max_lin_iteration fp) in *. set (I := fp_iterations_before_inner_solvers fp) in *.
  assert (A : forall x, x mod 4294967296 = (M - I) -> (if x mod 4294967296 <? 2147483648 then x mod 4294967296 else x mod 4294967296 - 4294967296) <= M - I).
  { intros x ->. destruct (_ <? _); lia. }
  apply Z.max_lub; [|lia]. apply A.
  destruct (Z.ltb_spec M 2147483648), (Z.ltb_spec I 2147483648).
  - apply Z.mod_small; lia.
  - lia.
  - replace (M - 4294967296 - I) with (M - I + (-1) * 4294967296) by lia. rewrite Z_mod_plus_full. apply Z.mod_small; lia.
  - replace (M - 4294967296 - (I - 4294967296)) with (M - I) by lia. apply Z.mod_small; lia.
Qed.

Lemma budget_strong_eq N (fp : flow_params N) :
  0 <= fp_max_lin_iteration fp < 2147483648 -> 0 <= fp_iterations_before_inner_solvers fp < fp_max_lin_iteration fp ->
  budget_strong fp = fp_max_lin_iteration fp - fp_iterations_before_inner_solvers fp.
Proof.
  intros Hm Hi. unfold budget_strong, to_int, u32. cbv zeta.
  rewrite (Z.mod_small (fp_max_lin_iteration fp)), (Z.mod_small (fp_iterations_before_inner_solvers fp)) by lia.
  rewrite (proj2 (Z.ltb_lt (fp_max_lin_iteration fp) 2147483648)), (proj2 (Z.ltb_lt (fp_iterations_before_inner_solvers fp) 2147483648)) by lia.
  rewrite Z.mod_small by lia. rewrite (proj2 (Z.ltb_lt _ 2147483648)) by lia. lia.
Qed.

Theorem C20_linear_budget :
  forall (N : Num) (V : Type) (vzero : V) (o : oracles (N:=N) V) (fp : flow_params N) (tol : N) (call : nat),
    0 <= fp_max_lin_iteration fp < 4294967296 -> 0 <= fp_iterations_before_inner_solvers fp < 4294967296 ->
    fp_linearization fp <> projection -> respects_budget o ->
    let r := solve_system V vzero o fp tol call in
    0 <= l_iterations V r <= fp_max_lin_iteration fp /\
    exists b1 r1,
      0 <= k_steps V r1 <= Z.max b1 0 /\ b1 = Z.min (fp_iterations_before_inner_solvers fp) (fp_max_lin_iteration fp) /\
      (* the first stage starts from zero and may end the solve *)
      ((l_stages V r = [Cheap V b1 vzero r1] /\ l_iterations V r = k_steps V r1 /\
        (k_converged V r1 = true \/ fp_max_lin_iteration fp <= fp_iterations_before_inner_solvers fp) /\
        l_residual V r = k_value V r1 /\ l_update V r = o_distribute V o (k_iterate V r1))
       \/
       (* otherwise its iterate is handed over, with the remaining budget *)
       exists b2 r2, l_stages V r = [Cheap V b1 vzero r1; Strong V b2 (k_iterate V r1) r2] /\
        k_converged V r1 = false /\ fp_iterations_before_inner_solvers fp < fp_max_lin_iteration fp /\
        b2 <= fp_max_lin_iteration fp - fp_iterations_before_inner_solvers fp /\
        (* a count that fits into a signed integer is handed over completely *)
        (fp_max_lin_iteration fp < 2147483648 -> b2 = fp_max_lin_iteration fp - fp_iterations_before_inner_solvers fp) /\
        l_iterations V r = k_steps V r1 + k_steps V r2 /\
        l_residual V r = k_value V r2 /\ l_update V r = o_distribute V o (k_iterate V r2)).
Proof.
  intros N V vzero o fp tol call Hm Hi Hp [R1 R2]. cbv zeta. unfold solve_system.
  assert (E : is_projection (fp_linearization fp) = false) by (destruct (fp_linearization fp); auto; contradiction).
  rewrite E. cbv zeta. set (r1 := o_cheap V o (budget_simple fp) tol vzero call).
  assert (S1 := R1 (budget_simple fp) tol vzero call). fold r1 in S1.
  assert (B : budget_simple fp = Z.min (fp_iterations_before_inner_solvers fp) (fp_max_lin_iteration fp)) by reflexivity.
  destruct (k_converged V r1) eqn:C.
  - cbn [l_iterations l_stages l_residual l_update]. rewrite Z.add_0_r. unfold u32. rewrite Z.mod_small by lia.
    split; [lia|]. exists (budget_simple fp), r1. split; [auto|]. split; [exact B|]. left. auto.
  - destruct (Z.ltb_spec (fp_iterations_before_inner_solvers fp) (fp_max_lin_iteration fp)) as [L|L].
    + set (r2 := o_strong V o (budget_strong fp) tol (k_iterate V r1) call).
      assert (S2 := R2 (budget_strong fp) tol (k_iterate V r1) call). fold r2 in S2.
      pose proof (budget_strong_le N fp Hm ltac:(lia)) as BS.
      cbn [l_iterations l_stages l_residual l_update]. unfold u32. rewrite Z.mod_small by lia.
      split; [lia|]. exists (budget_simple fp), r1. split; [auto|]. split; [exact B|]. right.
      exists (budget_strong fp), r2. split; [auto|]. split; [auto|]. split; [auto|]. split; [lia|]. split; [intros HM; apply budget_strong_eq; lia|]. auto.
    + cbn [l_iterations l_stages l_residual l_update]. rewrite Z.add_0_r. unfold u32. rewrite Z.mod_small by lia.
      split; [lia|]. exists (budget_simple fp), r1. split; [auto|]. split; [exact B|]. left. auto.
Qed.
Print Assumptions C20_linear_budget.
Example C20_nonvacuous : respects_budget (MkOracles (N:=FNum) Z
  (fun b tol g call => MkKrylov (N:=FNum) Z (Z.max b 0) (Fof_Z 1) 1 false)
  (fun b tol g call => MkKrylov (N:=FNum) Z (Z.max b 0) (Fof_Z 1) 1 false)
  (fun call => MkKrylov (N:=FNum) Z 5 (Fof_Z 1) 1 true) (fun x => x) (fun x => Fof_Z 1) : oracles (N:=FNum) Z).
Proof. split; intros; cbn; lia. Qed.

(** With the splitting scheme no linear solve of a step runs the coupled Krylov solver: every solve recorded is one projection
    step, and there is exactly one of them when the iteration is allowed to start at all. *)
Theorem C20_projection_step :
  forall (V : Type) (vadd : V -> V -> V) (vzero : V) (o : oracles (N:=RNum) V) (sh : V -> V)
         (fp : flow_params RNum) (ps : prec_state) (no : Z) (x0 : V) (r0 : R),
    fp_linearization fp = projection -> 0 < fp_max_nl_iteration fp ->
    let r := solve_nonlinear_system (N:=RNum) V vadd vzero o sh fp ps no x0 r0 in
    n_solves (r_trace V r) = 1 /\
    forall tol s, In (LinearSolve V tol s) (r_trace V r) -> exists k, l_stages V s = [Projection V k] /\ l_iterations V s = k_steps V k /\ l_update V s = k_iterate V k.
Proof.
  intros V vadd vzero o sh fp ps no x0 r0 P M r. unfold r, solve_nonlinear_system. cbn [r_trace].
  destruct (Z.to_nat (fp_max_nl_iteration fp)) as [|fuel] eqn:F; [lia|]. cbn [nl_loop]. cbv zeta. rewrite P. cbn [is_implicit negb ls_trace].
  unfold solve_system. rewrite P. cbn [is_projection]. cbv zeta.
  set (b := build_decision _ _ _ _ _ _). clearbody b. split.
  - destruct (b =? 0); reflexivity.
  - intros tol s I0. destruct (b =? 0); cbn [app In] in I0; repeat (destruct I0 as [I0|I0]; try contradiction; try discriminate I0);
      injection I0 as _ <-; eexists; cbn; eauto.
Qed.
Print Assumptions C20_projection_step.

(** the tolerance asked from the linear solver (exact arithmetic) *)
Theorem C20_linear_tolerance :
  forall (fp : flow_params RNum) (res : R),
    (0 < fp_tol_nl_iteration fp)%R -> (0 < fp_tol_lin_iteration fp)%R -> (0 <= res)%R ->
    let t := linear_tolerance fp res in
    (0 < t)%R /\ (t <= Rmax (fp_tol_lin_iteration fp) (fp_tol_nl_iteration fp / 2))%R /\
    (fp_rel_lin_iteration fp = false -> t = fp_tol_lin_iteration fp) /\
    (fp_rel_lin_iteration fp = true -> iterated (fp_linearization fp) = false -> t = (fp_tol_nl_iteration fp / 2)%R) /\
    (fp_rel_lin_iteration fp = true -> iterated (fp_linearization fp) = true ->
       (fp_tol_nl_iteration fp / 2 <= res * fp_tol_lin_iteration fp)%R ->
       (t <= fp_tol_lin_iteration fp * res)%R).
Proof.
  intros fp res H1 H2 H3. cbv zeta. rewrite <- iterated_is. unfold linear_tolerance. rnum.
  replace (Q2R (5#10)) with (1/2)%R by (unfold Q2R; cbn; lra).
  destruct (fp_rel_lin_iteration fp).
  - destruct (is_implicit (fp_linearization fp)); cbn [negb].
    + rewrite orb_false_r. destruct (Rltb_spec (res * fp_tol_lin_iteration fp)%R (1/2 * fp_tol_nl_iteration fp)%R) as [L|L].
      * split; [lra|]. split; [pose proof (Rmax_r (fp_tol_lin_iteration fp) (fp_tol_nl_iteration fp / 2)); rnum; lra|].
        split; [discriminate|]. split; [discriminate|]. intros _ _ H. lra.
      * unfold nmin; rnum. pose proof (Rmax_l (fp_tol_lin_iteration fp) (fp_tol_nl_iteration fp / 2)) as RL; rnum.
        rcase; (split; [|split; [|split; [|split]]]; try discriminate); try (intros _ _ H); try lra.
    + rewrite orb_true_r. split; [lra|]. split; [pose proof (Rmax_r (fp_tol_lin_iteration fp) (fp_tol_nl_iteration fp / 2)); rnum; lra|].
      split; [discriminate|]. split; [intros; lra|discriminate].
  - split; [lra|]. split; [apply Rmax_l|]. split; [auto|]. split; discriminate.
Qed.
Print Assumptions C20_linear_tolerance.

(** ** C53: the preconditioner is built before it is used *)
Section Steps.
Context {N : Num} {V : Type}.
(** a sequence of time steps after setup; each has its own oracles, shift, step number and start vector *)
Fixpoint run_steps (vadd : V -> V -> V) (vzero : V) (fp : flow_params N) (ps : prec_state)
    (l : list (oracles (N:=N) V * (V -> V) * Z * V * N)) : list (nl_event (N:=N) V) * prec_state :=
  match l with
  | [] => ([], ps)
  | (o, shift, no, x0, r0) :: t =>
      let r := solve_nonlinear_system V vadd vzero o shift fp ps no x0 r0 in
      let '(tr, ps') := run_steps vadd vzero fp (r_prec V r) t in
      ((r_trace V r ++ tr)%list, ps')
  end.
End Steps.

Lemma loop_prefix {N : Num} V vadd vzero (o : oracles (N:=N) V) fp ps no fuel s :
  ls_broke V s = false ->
  exists new, ls_trace V (nl_loop V vadd vzero fuel o fp ps no s) = (ls_trace V s ++ new)%list.
Proof. intros H. destruct (loop_inv vadd vzero o fp ps no fuel s H) as (new & E & _). eauto. Qed.

Lemma first_event {N : Num} V vadd vzero (o : oracles (N:=N) V) shift fp ps no x0 r0 :
  update_preconditioner ps = true ->
  r_trace V (solve_nonlinear_system V vadd vzero o shift fp ps no x0 r0) = [] \/
  exists t, r_trace V (solve_nonlinear_system V vadd vzero o shift fp ps no x0 r0) = BuildPreconditioner V :: t.
Proof.
  intros H. unfold solve_nonlinear_system. cbn [r_trace]. destruct (Z.to_nat (fp_max_nl_iteration fp)) as [|fuel]; [left; reflexivity|].
  right. cbn [nl_loop]. unfold build_decision. cbn [ls_step ls_trace ls_solution ls_res ls_n_tot ls_premature]. rewrite H. cbn [Z.eqb andb app].
  destruct (negb (is_implicit (fp_linearization fp))); [eexists; reflexivity|].
  cbv zeta. destruct (nltb _ _); [eexists; reflexivity|].
  match goal with |- context [nl_loop V vadd vzero fuel o fp ps no ?s1] => destruct (loop_prefix V vadd vzero o fp ps no fuel s1 eq_refl) as (new & ->) end.
  eexists; reflexivity.
Qed.
(** After setup (which raises the update flag) the first action of any sequence of time steps is a build
    of the preconditioner, so no linear solve uses a stale or missing preconditioner. *)
Theorem C53_preconditioner_built_before_first_solve :
  forall (N : Num) (V : Type) (vadd : V -> V -> V) (vzero : V) (fp : flow_params N) (ps : prec_state)
         (l : list (oracles (N:=N) V * (V -> V) * Z * V * N)),
    update_preconditioner ps = true -> 0 < fp_max_nl_iteration fp ->
    let tr := fst (run_steps vadd vzero fp ps l) in
    tr = [] \/ exists t, tr = BuildPreconditioner V :: t.
Proof.
  intros N V vadd vzero fp ps [|[[[[o sh] no] x0] r0] t] Hu Hm; [left; reflexivity|].
  right. cbn [run_steps]. destruct (run_steps vadd vzero fp _ t) as [tr ps']. cbn [fst]. destruct (first_event V vadd vzero o sh fp ps no x0 r0 Hu) as [E|[t' E]].
  - exfalso. unfold solve_nonlinear_system in E. cbn [r_trace] in E.
    destruct (Z.to_nat (fp_max_nl_iteration fp)) as [|fuel] eqn:Ef; [lia|]. cbn [nl_loop] in E. cbv zeta in E.
    destruct (negb (is_implicit (fp_linearization fp))).
    + cbn [ls_trace] in E. apply app_eq_nil in E as [_ E]. apply app_eq_nil in E as [_ E]. discriminate.
    + destruct (nltb _ _).
      * cbn [ls_trace] in E. apply app_eq_nil in E as [_ E]. discriminate.
      * match type of E with context [nl_loop V vadd vzero fuel o fp ps no ?s1] => destruct (loop_prefix V vadd vzero o fp ps no fuel s1 eq_refl) as (new & E') end.
        rewrite E' in E. cbn [ls_trace] in E. apply app_eq_nil in E as [E _]. apply app_eq_nil in E as [_ E]. discriminate.
  - rewrite E. eexists; reflexivity.
Qed.
Print Assumptions C53_preconditioner_built_before_first_solve.

(** If a step needed more than 1.2 times the linear iterations of the last build (and did not itself start
    with a build), the next step rebuilds; in the first time step the flag is always raised. *)
Theorem C53_rebuild_on_deterioration :
  forall (N : Num) (V : Type) (vadd : V -> V -> V) (vzero : V) (o o' : oracles (N:=N) V) (sh sh' : V -> V)
         (fp : flow_params N) (ps : prec_state) (no no' : Z) (x0 x0' : V) (r0 r0' : N),
    0 < fp_max_nl_iteration fp < 4294967296 ->
    let r := solve_nonlinear_system V vadd vzero o sh fp ps no x0 r0 in
    (no < 2 \/
     (update_preconditioner ps = false /\
      ngtb (ofZ (N:=N) ((n_linear (r_trace V r)) mod 4294967296)) (nmul (nlit (12#10)) (ofZ (n_iterations_last_prec_update ps))) = true)) ->
    exists t, r_trace V (solve_nonlinear_system V vadd vzero o' sh' fp (r_prec V r) no' x0' r0') = BuildPreconditioner V :: t.
Proof.
  intros N V vadd vzero o o' sh sh' fp ps no no' x0 x0' r0 r0' Hm r H.
  assert (U : update_preconditioner (r_prec V r) = true).
  { unfold r, solve_nonlinear_system in *. cbn [r_prec r_trace] in *. unfold prec_after.
    destruct (loop_inv vadd vzero o fp ps no (Z.to_nat (fp_max_nl_iteration fp))
                (MkLoop V 0 x0 r0 0 false [] false) eq_refl) as (new & T1 & T2 & T3 & T4 & T5 & T6 & T7).
    cbn [ls_trace ls_n_tot app] in T1, T3. set (s' := nl_loop V vadd vzero _ _ _ _ _ _) in *.
    destruct H as [H|[H1 H2]].
    - destruct (update_preconditioner ps); cbn [update_preconditioner];
        rewrite (proj2 (Z.ltb_lt _ _) H), !orb_true_r; reflexivity.
    - rewrite H1. cbn [update_preconditioner].
      assert (E : ls_n_tot V s' = (n_linear new) mod 4294967296).
      { destruct (ls_broke V s') eqn:B.
        - destruct (T6 eq_refl) as (_ & _ & -> & _). rewrite T3. reflexivity.
        - assert (Q : forall fuel s, ls_n_tot V s = u32 (ls_n_tot V s) -> ls_n_tot V (nl_loop V vadd vzero fuel o fp ps no s) = u32 (ls_n_tot V (nl_loop V vadd vzero fuel o fp ps no s))).
          { induction fuel as [|fuel IH]; intros s Hs; cbn [nl_loop]; auto. cbv zeta.
            destruct (negb _); [cbn; unfold u32; rewrite Zmod_mod; auto|].
            destruct (nltb _ _); [cbn; unfold u32; rewrite Zmod_mod; auto|]. apply IH. cbn. unfold u32; rewrite Zmod_mod; auto. }
          unfold s'. rewrite Q by reflexivity. fold s'. rewrite T3. reflexivity. }
      rewrite T1 in H2. rewrite E, H2. reflexivity. }
  destruct (first_event V vadd vzero o' sh' fp (r_prec V r) no' x0' r0' U) as [E|E]; auto. exfalso.
  pose proof (C19_bounded_and_honest N V vadd vzero o' sh' fp (r_prec V r) no' x0' r0' ltac:(lia)) as K. cbv zeta in K.
  rewrite E in K. destruct K as (_ & _ & _ & K). destruct (r_outcome V _) as [[a b]|u].
  - destruct K as (K1 & K2 & _). cbn in K1. lia.
  - destruct K as (K1 & _). cbn in K1. lia.
Qed.
Print Assumptions C53_rebuild_on_deterioration.
Example C53_nonvacuous :
  let r := solve_nonlinear_system Z Z.add 0 (ex_oracle 2) (fun x => x) ex_fp (MkPrec 2 1 false 0) 7 0 (Fof_Z 1) in
  (negb (update_preconditioner (MkPrec 2 1 false 0)) &&
   ngtb (N:=FNum) (ofZ (N:=FNum) ((n_linear (r_trace Z r)) mod 4294967296))
        (nmul (nlit (12#10)) (ofZ (N:=FNum) 2)))%bool = true.
Proof. vm_compute. reflexivity. Qed.

(** The members that steer the updates: a step that began with a build becomes the reference (its number and its
    number of linear iterations), otherwise the reference is kept; without a rebuild frequency in force the next
    step begins with a build exactly if more than 1.2 times the linear iterations of the reference were needed, or
    the reference is from the first two steps and step 15 is reached, or in the first step. *)
Theorem C53_reference_and_next_build :
  forall (N : Num) (V : Type) (vadd : V -> V -> V) (vzero : V) (o : oracles (N:=N) V) (sh : V -> V)
         (fp : flow_params N) (ps : prec_state) (no : Z) (x0 : V) (r0 : N),
    0 < fp_max_nl_iteration fp < 4294967296 ->
    let r := solve_nonlinear_system V vadd vzero o sh fp ps no x0 r0 in
    let needed := (n_linear (r_trace V r)) mod 4294967296 in
    let ps' := r_prec V r in
    (update_preconditioner ps = true ->
       n_iterations_last_prec_update ps' = needed /\ time_step_last_prec_update ps' = no) /\
    (update_preconditioner ps = false ->
       n_iterations_last_prec_update ps' = n_iterations_last_prec_update ps /\
       time_step_last_prec_update ps' = time_step_last_prec_update ps) /\
    (update_preconditioner_frequency ps' = 0 ->
       (update_preconditioner ps' = true <->
          ngtb (ofZ (N:=N) needed) (nmul (nlit (12#10)) (ofZ (n_iterations_last_prec_update ps'))) = true \/
          (time_step_last_prec_update ps' < 3 /\ 14 < no) \/ no < 2)).
Proof.
  intros N V vadd vzero o sh fp ps no x0 r0 Hm r needed ps'.
  unfold ps', needed, r, solve_nonlinear_system in *. cbn [r_prec r_trace] in *.
  destruct (loop_inv vadd vzero o fp ps no (Z.to_nat (fp_max_nl_iteration fp))
              (MkLoop V 0 x0 r0 0 false [] false) eq_refl) as (new & T1 & T2 & T3 & T4 & T5 & T6 & T7).
  cbn [ls_trace ls_n_tot app] in T1, T3. set (s' := nl_loop V vadd vzero _ _ _ _ _ _) in *.
  assert (E : ls_n_tot V s' = (n_linear (ls_trace V s')) mod 4294967296).
  { rewrite T1. destruct (ls_broke V s') eqn:B.
    - destruct (T6 eq_refl) as (_ & _ & -> & _). rewrite T3. reflexivity.
    - assert (Q : forall fuel s, ls_n_tot V s = u32 (ls_n_tot V s) -> ls_n_tot V (nl_loop V vadd vzero fuel o fp ps no s) = u32 (ls_n_tot V (nl_loop V vadd vzero fuel o fp ps no s))).
      { induction fuel as [|fuel IH]; intros s Hs; cbn [nl_loop]; auto. cbv zeta.
        destruct (negb _); [cbn; unfold u32; rewrite Zmod_mod; auto|].
        destruct (nltb _ _); [cbn; unfold u32; rewrite Zmod_mod; auto|]. apply IH. cbn. unfold u32; rewrite Zmod_mod; auto. }
      unfold s'. rewrite Q by reflexivity. fold s'. rewrite T3. reflexivity. }
  clearbody s'. rewrite <- E. clear T1 T2 T3 T4 T5 T6 T7 E. generalize (ls_n_tot V s') (ls_premature V s'). intros nt pm.
  unfold prec_after. destruct (update_preconditioner ps); cbv zeta; cbn [n_iterations_last_prec_update time_step_last_prec_update update_preconditioner update_preconditioner_frequency orb];
  (split; [try discriminate; auto|]; split; [try discriminate; auto|]);
  intros ->; rewrite Z.ltb_irrefl, !andb_false_r, orb_false_r, !orb_true_iff, andb_true_iff, !Z.ltb_lt; tauto.
Qed.
Print Assumptions C53_reference_and_next_build.

(** The rebuild frequency and the rebuilds inside a step, over the real numbers and without overflow of the unsigned
    counters.  A rebuild inside the step is a build after a linear solve of the same step. *)
Definition is_build {N : Num} {V} (e : @nl_event N V) : bool := match e with BuildPreconditioner _ => true | _ => false end.
Definition rebuilt_within {N : Num} {V} (tr : list (@nl_event N V)) : Prop :=
  exists a b, tr = (a ++ BuildPreconditioner V :: b)%list /\ 0 < n_solves a.
Definition small (z : Z) : Prop := 0 <= z < 2147483648.

Lemma more_spec (a b : Z) q : ngtb (N:=RNum) (ofZ (N:=RNum) a) (nmul (nlit q : RNum) (ofZ (N:=RNum) b)) = true <-> (IZR a > Q2R q * IZR b)%R.
Proof.
  assert (E : forall z, (ofZ (N:=RNum) z : R) = IZR z).
  { intros z. unfold ofZ. cbn [nlit RNum]. unfold Q2R. cbn. field. }
  unfold ngtb. cbn [nltb RNum].
  change (Rltb (Q2R q * (ofZ (N:=RNum) b : R))%R (ofZ (N:=RNum) a : R) = true <-> (IZR a > Q2R q * IZR b)%R).
  rewrite !E. destruct (Rltb_spec (Q2R q * IZR b)%R (IZR a)); split; intros; try discriminate; auto; lra.
Qed.
Lemma q15 : Q2R (15 # 10) = (15 / 10)%R. Proof. unfold Q2R. cbn. lra. Qed.
Lemma q12 : Q2R (12 # 10) = (12 / 10)%R. Proof. unfold Q2R. cbn. lra. Qed.

(** the state of the loop, as far as the builds are concerned *)
Record tracks {V} (fp : flow_params RNum) (ps : prec_state) (no : Z) (s : loop_state (N:=RNum) V) : Prop := {
  k_step : ls_broke V s = false -> ls_step V s = n_solves (ls_trace V s);
  k_tot : ls_n_tot V s = u32 (n_linear (ls_trace V s));
  k_pre : ls_premature V s = true <-> rebuilt_within (ls_trace V s);
  k_why : forall a b, ls_trace V s = (a ++ BuildPreconditioner V :: b)%list ->
    (n_solves a = 0 /\ update_preconditioner ps = true) \/
    (0 < n_solves a /\ ((1 < no /\ ~ rebuilt_within a /\ (IZR (u32 (n_linear a)) > 15 / 10 * IZR (n_iterations_last_prec_update ps))%R) \/
                        (is_stationary (fp_physical_type fp) = true /\ n_solves a mod 6 = 1)));
  k_done : forall a tol r b, ls_trace V s = (a ++ LinearSolve V tol r :: b)%list -> (forall a', a <> (a' ++ [BuildPreconditioner V])%list) ->
    ~ ((n_solves a = 0 /\ update_preconditioner ps = true) \/
       (1 < no /\ ~ rebuilt_within a /\ (IZR (u32 (n_linear a)) > 15 / 10 * IZR (n_iterations_last_prec_update ps))%R) \/
       (is_stationary (fp_physical_type fp) = true /\ n_solves a mod 6 = 1)) }.

Lemma one_event {N : Num} V (x : @nl_event N V) (a b c d : list (@nl_event N V)) :
  (a ++ x :: b = c ++ d)%list ->
  (exists e, c = (a ++ x :: e)%list) \/ (exists e, a = (c ++ e)%list /\ d = (e ++ x :: b)%list).
Proof.
  revert a; induction c as [|y c IH]; intros a H.
  - right. exists a. auto.
  - destruct a as [|z a]; cbn [app] in H.
    + injection H as <- H. left. exists c. reflexivity.
    + injection H as <- H. destruct (IH a H) as [(e & ->)|(e & -> & ->)]; [left|right]; exists e; auto.
Qed.
Lemma small_solve {N : Num} V (e b : list (@nl_event N V)) (with_build : bool) tol r (with_res : bool) x res tol' r' :
  ((if with_build then [BuildPreconditioner V] else []) ++ LinearSolve V tol r :: (if with_res then [Residual V x res] else []) = e ++ LinearSolve V tol' r' :: b)%list ->
  e = if with_build then [BuildPreconditioner V] else [].
Proof.
  destruct with_build; cbn [app]; intros H.
  - destruct e as [|y e]; [discriminate H|]. injection H as <- H. destruct e as [|y' e]; [reflexivity|]. exfalso. injection H as _ H.
    destruct with_res; destruct e as [|y'' e]; cbn in H; try discriminate H. injection H as _ H. destruct e; discriminate H.
  - destruct e as [|y e]; [reflexivity|]. exfalso. injection H as _ H.
    destruct with_res; destruct e as [|y'' e]; cbn in H; try discriminate H. injection H as _ H. destruct e; discriminate H.
Qed.

Lemma one_build {N : Num} V (a b c d : list (@nl_event N V)) :
  (a ++ BuildPreconditioner V :: b = c ++ d)%list ->
  (exists e, c = (a ++ BuildPreconditioner V :: e)%list) \/ (exists e, a = (c ++ e)%list /\ d = (e ++ BuildPreconditioner V :: b)%list).
Proof.
  revert a; induction c as [|x c IH]; intros a H.
  - right. exists a. auto.
  - destruct a as [|y a]; cbn [app] in H.
    + injection H as <- H. left. exists c. reflexivity.
    + injection H as <- H. destruct (IH a H) as [(e & ->)|(e & -> & ->)]; [left|right]; exists e; auto.
Qed.
Lemma small_pieces {N : Num} V (e b : list (@nl_event N V)) (with_build : bool) tol r (with_res : bool) x res :
  ((if with_build then [BuildPreconditioner V] else []) ++ LinearSolve V tol r :: (if with_res then [Residual V x res] else []) = e ++ BuildPreconditioner V :: b)%list ->
  with_build = true /\ e = [].
Proof.
  destruct with_build; cbn [app]; intros H.
  - destruct e as [|y e]; [auto|]. exfalso. injection H as _ H.
    destruct e as [|y' e]; [discriminate H|]. injection H as _ H.
    destruct with_res; destruct e as [|y'' e]; cbn in H; try discriminate H. injection H as _ H. destruct e; discriminate H.
  - exfalso. destruct e as [|y e]; [discriminate H|]. injection H as _ H.
    destruct with_res; destruct e as [|y'' e]; cbn in H; try discriminate H. injection H as _ H. destruct e; discriminate H.
Qed.

Lemma tracks_step {V : Type} (fp : flow_params RNum) (ps : prec_state) (no : Z) (tr : list (@nl_event RNum V)) (n_tot : Z) (pm : bool) (step : Z) (tol : RNum) (r : linear_result (N:=RNum) V) (with_res : bool) (x : V) (res : RNum) (sol sol' : V) (rs rs' : RNum) (br : bool) :
  0 <= n_iterations_last_prec_update ps ->
  tracks fp ps no (MkLoop (N:=RNum) V step sol rs n_tot pm tr false) ->
  let b := build_decision (N:=RNum) fp ps no step n_tot pm in
  tracks fp ps no (MkLoop (N:=RNum) V (if br then step else step + 1) sol' rs' (u32 (n_tot + l_iterations V r)) (if b =? 2 then true else pm)
    (tr ++ ((if negb (b =? 0) then [BuildPreconditioner V] else []) ++ LinearSolve V tol r :: (if with_res then [Residual V x res] else [])))%list br).
Proof.
  intros H0 [K1 K2 K3 K4 K5] b. cbn [ls_step ls_trace ls_n_tot ls_premature ls_broke] in *. specialize (K1 eq_refl).
  set (add := ((if negb (b =? 0) then [BuildPreconditioner V] else []) ++ LinearSolve V tol r :: (if with_res then [Residual V x res] else []))%list).
  assert (S1 : n_solves add = 1) by (unfold add; rewrite n_solves_app; destruct (negb _), with_res; reflexivity).
  assert (L1 : n_linear add = l_iterations V r) by (unfold add; rewrite n_linear_app; destruct (negb _), with_res; cbn [n_linear]; lia).
  assert (B : b = 0 \/ (b = 1 /\ step = 0 /\ update_preconditioner ps = true) \/
    (b = 2 /\ 0 < step /\ ((1 < no /\ pm = false /\ (IZR n_tot > 15 / 10 * IZR (n_iterations_last_prec_update ps))%R) \/ (is_stationary (fp_physical_type fp) = true /\ step mod 6 = 1)))).
  { unfold b, build_decision. destruct ((step =? 0) && update_preconditioner ps) eqn:E1.
    - apply andb_true_iff in E1 as [E1 E2]. apply Z.eqb_eq in E1. auto.
    - match goal with |- context [if ?c then 2 else 0] => destruct c eqn:E2 end; [|auto]. right. right. split; [reflexivity|].
      apply orb_true_iff in E2 as [E2|E2].
      + apply andb_true_iff in E2 as [E2 E3]. apply andb_true_iff in E2 as [E2 E4]. apply Z.ltb_lt in E4. apply negb_true_iff in E2.
        apply more_spec in E3. rewrite q15 in E3.
        assert (0 < step). { destruct (Z.eq_dec step 0) as [Z0|Z0].
          - exfalso. assert (A : n_tot = 0).
            { rewrite K2. assert (A : n_linear tr = 0).
              { rewrite K1 in Z0. clear -Z0. induction tr as [|[] tr IH]; cbn [n_solves n_linear] in *; auto.
                pose proof (n_solves_nonneg tr). lia. }
              rewrite A. reflexivity. }
            rewrite A in E3. apply IZR_le in H0. lra.
          - pose proof (n_solves_nonneg tr). lia. }
        auto.
      + apply andb_true_iff in E2 as [E2 E3]. apply Z.eqb_eq in E3.
        assert (0 < step). { destruct (Z.eq_dec step 0) as [->|Z0]; [discriminate E3|]. pose proof (n_solves_nonneg tr). lia. }
        auto. }
  assert (B0 : b = 0 -> ~ ((step = 0 /\ update_preconditioner ps = true) \/
       (1 < no /\ pm = false /\ (IZR n_tot > 15 / 10 * IZR (n_iterations_last_prec_update ps))%R) \/
       (is_stationary (fp_physical_type fp) = true /\ step mod 6 = 1))).
  { unfold b, build_decision. intros E [(-> & U)|[(A1 & A2 & A3)|(A1 & A2)]].
    - rewrite U in E. discriminate E.
    - destruct ((step =? 0) && update_preconditioner ps); [discriminate E|]. rewrite A2 in E. cbn [negb andb] in E.
      apply Z.ltb_lt in A1. rewrite A1 in E. cbn [andb] in E. rewrite <- q15 in A3. apply more_spec in A3. rewrite A3 in E. discriminate E.
    - destruct ((step =? 0) && update_preconditioner ps); [discriminate E|]. rewrite A1, A2 in E. cbn [Z.eqb andb] in E. rewrite orb_true_r in E. discriminate E. }
  clearbody b.
  constructor; cbn [ls_step ls_trace ls_n_tot ls_premature ls_broke].
  - destruct br; [discriminate|]. intros _. rewrite n_solves_app, S1, K1. reflexivity.
  - rewrite n_linear_app, L1, K2, u32_add. reflexivity.
  - split.
    + intros P. destruct (b =? 2) eqn:E.
      * apply Z.eqb_eq in E. destruct B as [B|[(B & _)|(_ & B & _)]]; try lia.
        exists tr, (LinearSolve V tol r :: (if with_res then [Residual V x res] else []))%list. unfold add. rewrite E. cbn [Z.eqb negb app].
        split; [reflexivity|]. lia.
      * apply K3 in P as (u & v & -> & P). exists u, (v ++ add)%list. rewrite <- app_assoc. auto.
    + intros (u & v & E & P). symmetry in E. apply one_build in E as [(e & E)|(e & E1 & E2)].
      * assert (pm = true) as ->. { apply K3. exists u, e. auto. } destruct (b =? 2); reflexivity.
      * unfold add in E2. apply small_pieces in E2 as [E2 ->]. rewrite app_nil_r in E1. subst u.
        assert (B2 : b = 2) by (apply negb_true_iff, Z.eqb_neq in E2; destruct B as [B|[(_ & B & _)|(B & _)]]; [contradiction|exfalso; rewrite <- K1 in P; lia|exact B]). rewrite B2. reflexivity.
  - intros u v E. symmetry in E. apply one_build in E as [(e & E)|(e & E1 & E2)].
    + apply (K4 u e E).
    + unfold add in E2. apply small_pieces in E2 as [E2 ->]. rewrite app_nil_r in E1. subst u.
      apply negb_true_iff, Z.eqb_neq in E2. destruct B as [B|[(_ & B & B')|(_ & B & B')]]; [lia|left; split; [lia|exact B']|right].
      split; [lia|]. destruct B' as [(B1 & B2 & B3)|(B1 & B2)]; [left|right].
      * split; [exact B1|]. split; [rewrite <- K3, B2; discriminate|]. rewrite K2 in B3. exact B3.
      * rewrite <- K1. auto.
  - intros u tol' r' v E NB. symmetry in E. apply one_event in E as [(e & E)|(e & E1 & E2)].
    + apply (K5 u tol' r' e E NB).
    + unfold add in E2. apply small_solve in E2. destruct (negb (b =? 0)) eqn:Eb; subst e.
      * exfalso. exact (NB tr E1).
      * rewrite app_nil_r in E1. subst u. apply negb_false_iff, Z.eqb_eq in Eb. intros G. apply (B0 Eb).
        rewrite K1, K2. destruct G as [G|[(G1 & G2 & G3)|G]]; [auto| |auto]. right. left. split; [exact G1|]. split; [|exact G3].
        destruct pm; [|reflexivity]. exfalso. apply G2, K3. reflexivity.
Qed.
Lemma loop_tracks {V} (vadd : V -> V -> V) (vzero : V) o (fp : flow_params RNum) (ps : prec_state) (no : Z) fuel : forall s,
  0 <= n_iterations_last_prec_update ps -> ls_broke V s = false -> tracks fp ps no s ->
  tracks fp ps no (nl_loop V vadd vzero fuel o fp ps no s).
Proof.
  induction fuel as [|fuel IH]; intros [step sol rs n_tot pm tr br] H0 Hb H; cbn [ls_broke] in Hb; subst br; [exact H|].
  cbn [nl_loop]. cbv zeta. cbn [ls_step ls_solution ls_res ls_n_tot ls_premature ls_trace ls_broke].
  set (tol := linear_tolerance _ _). set (r := solve_system _ _ _ _ _ _). set (b := build_decision _ _ _ _ _ _). clearbody tol r.
  assert (E : forall t, (tr ++ (if b =? 0 then [] else [BuildPreconditioner V]) ++ t = tr ++ (if negb (b =? 0) then [BuildPreconditioner V] else []) ++ t)%list)
    by (intros t; destruct (b =? 0); reflexivity).
  rewrite E.
  destruct (negb (is_implicit (fp_linearization fp))).
  - pose proof (tracks_step fp ps no tr n_tot pm step tol r false sol rs sol (vadd sol (l_update V r)) rs rs true H0 H) as T. exact T.
  - rewrite <- !app_assoc. cbn [app].
    destruct (nltb _ _).
    + pose proof (tracks_step fp ps no tr n_tot pm step tol r true (vadd sol (l_update V r)) (o_residual V o (vadd sol (l_update V r))) sol (vadd sol (l_update V r)) rs
        (o_residual V o (vadd sol (l_update V r))) true H0 H) as T. exact T.
    + apply IH; [exact H0|reflexivity|].
      pose proof (tracks_step fp ps no tr n_tot pm step tol r true (vadd sol (l_update V r)) (o_residual V o (vadd sol (l_update V r))) sol (vadd sol (l_update V r)) rs
        (o_residual V o (vadd sol (l_update V r))) false H0 H) as T. exact T.
Qed.

(** A build inside a step (after at least one linear solve of the step) happens only when the step has already used more than
    1.5 times the linear iterations of the reference, at most once and not in the first time step - or, for stationary problems,
    after the solves number 1, 7, 13, ...  A build before the first solve happens only when the flag is raised. *)
Theorem C53_why_built :
  forall (V : Type) (vadd : V -> V -> V) (vzero : V) (o : oracles (N:=RNum) V) (sh : V -> V)
         (fp : flow_params RNum) (ps : prec_state) (no : Z) (x0 : V) (r0 : R) (before after : list (@nl_event RNum V)),
    0 <= n_iterations_last_prec_update ps ->
    r_trace V (solve_nonlinear_system (N:=RNum) V vadd vzero o sh fp ps no x0 r0) = (before ++ BuildPreconditioner V :: after)%list ->
    (n_solves before = 0 /\ update_preconditioner ps = true) \/
    (0 < n_solves before /\
     ((1 < no /\ ~ rebuilt_within before /\ (IZR (n_linear before mod 4294967296) > 15 / 10 * IZR (n_iterations_last_prec_update ps))%R) \/
      (fp_physical_type fp = incompressible_stationary /\ n_solves before mod 6 = 1))).
Proof.
  intros V vadd vzero o sh fp ps no x0 r0 before after H0 E. unfold solve_nonlinear_system in E. cbn [r_trace] in E.
  set (s0 := MkLoop (N:=RNum) V 0 x0 r0 0 false [] false) in *.
  assert (T0 : tracks fp ps no s0).
  { constructor; cbn [s0 ls_step ls_trace ls_n_tot ls_premature ls_broke].
    - reflexivity.
    - reflexivity.
    - split; [discriminate|]. intros (a & b & A & _). destruct a; discriminate A.
    - intros a b A. destruct a; discriminate A.
    - intros a t r b A. destruct a; discriminate A. }
  destruct (k_why _ _ _ _ (loop_tracks vadd vzero o fp ps no (Z.to_nat (fp_max_nl_iteration fp)) s0 H0 eq_refl T0) before after E) as [D|[D1 D2]]; [auto|right].
  split; [exact D1|]. destruct D2 as [D2|[D2 D3]]; [auto|right]. split; [|exact D3]. destruct (fp_physical_type fp); auto; discriminate D2.
Qed.
Print Assumptions C53_why_built.

(** The other direction: a linear solve that is not preceded by a build has no reason for one. *)
Theorem C53_built_when_due :
  forall (V : Type) (vadd : V -> V -> V) (vzero : V) (o : oracles (N:=RNum) V) (sh : V -> V)
         (fp : flow_params RNum) (ps : prec_state) (no : Z) (x0 : V) (r0 : R) (before after : list (@nl_event RNum V)) tol r,
    0 <= n_iterations_last_prec_update ps ->
    r_trace V (solve_nonlinear_system (N:=RNum) V vadd vzero o sh fp ps no x0 r0) = (before ++ LinearSolve V tol r :: after)%list ->
    (n_solves before = 0 /\ update_preconditioner ps = true) \/
    (1 < no /\ ~ rebuilt_within before /\ (IZR (n_linear before mod 4294967296) > 15 / 10 * IZR (n_iterations_last_prec_update ps))%R) \/
    (fp_physical_type fp = incompressible_stationary /\ n_solves before mod 6 = 1) ->
    exists earlier, before = (earlier ++ [BuildPreconditioner V])%list.
Proof.
  intros V vadd vzero o sh fp ps no x0 r0 before after tol r H0 E G. unfold solve_nonlinear_system in E. cbn [r_trace] in E.
  set (s0 := MkLoop (N:=RNum) V 0 x0 r0 0 false [] false) in *.
  assert (T0 : tracks fp ps no s0).
  { constructor; cbn [s0 ls_step ls_trace ls_n_tot ls_premature ls_broke].
    - reflexivity.
    - reflexivity.
    - split; [discriminate|]. intros (a & b & A & _). destruct a; discriminate A.
    - intros a b A. destruct a; discriminate A.
    - intros a t q b A. destruct a; discriminate A. }
  pose proof (k_done _ _ _ _ (loop_tracks vadd vzero o fp ps no (Z.to_nat (fp_max_nl_iteration fp)) s0 H0 eq_refl T0) before tol r after E) as D.
  assert (X : forall l : list (@nl_event RNum V), (exists e, l = (e ++ [BuildPreconditioner V])%list) \/ (forall e, l <> (e ++ [BuildPreconditioner V])%list)).
  { intros l. induction l as [|y l _] using rev_ind; [right; intros e; destruct e; discriminate|].
    destruct y; [left; exists l; reflexivity|right|right]; intros e K; apply app_inj_tail in K as [_ K]; discriminate K. }
  destruct (X before) as [Y|Y]; [exact Y|]. exfalso. apply (D Y). unfold u32.
  destruct G as [G|[G|(G1 & G2)]]; [auto|auto|]. right. right. rewrite G1. auto.
Qed.
Print Assumptions C53_built_when_due.

(** The rebuild frequency: it is dropped every fifty periods; when a step needed more than 1.2 times the linear iterations of the
    reference and either rebuilt within the step or needed more than twice the reference, the number of steps since the reference
    becomes the frequency.  With a frequency in force a build is also due as soon as that many steps have passed, unless the step
    rebuilt within itself. *)
Theorem C53_rebuild_frequency :
  forall (V : Type) (vadd : V -> V -> V) (vzero : V) (o : oracles (N:=RNum) V) (sh : V -> V)
         (fp : flow_params RNum) (ps : prec_state) (no : Z) (x0 : V) (r0 : R),
    small (n_iterations_last_prec_update ps) -> 0 <= time_step_last_prec_update ps <= no -> small no ->
    0 <= update_preconditioner_frequency ps <= 50000000 ->
    let r := solve_nonlinear_system (N:=RNum) V vadd vzero o sh fp ps no x0 r0 in
    small (n_linear (r_trace V r)) ->
    let needed := IZR (n_linear (r_trace V r)) in
    let ps' := r_prec V r in
    let ref := IZR (n_iterations_last_prec_update ps') in
    let since := no - time_step_last_prec_update ps' in
    let freq := update_preconditioner_frequency ps in
    let freq' := update_preconditioner_frequency ps' in
    ((needed > 12 / 10 * ref)%R -> rebuilt_within (r_trace V r) \/ (needed > 2 * ref)%R -> freq' = since) /\
    ((needed <= 12 / 10 * ref)%R \/ (~ rebuilt_within (r_trace V r) /\ (needed <= 2 * ref)%R) ->
       freq' = if (0 <? freq) && (no mod (50 * freq) =? 0) then 0 else freq) /\
    (update_preconditioner ps' = true <->
       (needed > 12 / 10 * ref)%R \/ (time_step_last_prec_update ps' < 3 /\ 14 < no) \/ no < 2 \/
       (~ rebuilt_within (r_trace V r) /\ 0 < freq' <= since + 1)).
Proof.
  intros V vadd vzero o sh fp ps no x0 r0 Hn Ht Hno Hf r Hs. unfold small in *.
  unfold r, solve_nonlinear_system in *. cbn [r_trace r_prec] in *. set (s0 := MkLoop (N:=RNum) V 0 x0 r0 0 false [] false) in *.
  assert (T0 : tracks fp ps no s0).
  { constructor; cbn [s0 ls_step ls_trace ls_n_tot ls_premature ls_broke].
    - reflexivity.
    - reflexivity.
    - split; [discriminate|]. intros (a & b & A & _). destruct a; discriminate A.
    - intros a b A. destruct a; discriminate A.
    - intros a t q b A. destruct a; discriminate A. }
  destruct (loop_tracks vadd vzero o fp ps no (Z.to_nat (fp_max_nl_iteration fp)) s0 (proj1 Hn) eq_refl T0) as [_ K2 K3 _ _].
  set (s := nl_loop V vadd vzero _ _ _ _ _ _) in *. clearbody s. clear r.
  assert (E : ls_n_tot V s = n_linear (ls_trace V s)) by (rewrite K2; unfold u32; apply Z.mod_small; lia).
  rewrite <- E in *. revert Hs. generalize (ls_n_tot V s). intros nt Hs. clear E K2.
  revert K3. generalize (rebuilt_within (ls_trace V s)) (ls_premature V s). intros RW pm K3. clear T0 s0 s.
  unfold prec_after. cbv zeta.
  set (nl := if update_preconditioner ps then nt else n_iterations_last_prec_update ps).
  set (tl := if update_preconditioner ps then no else time_step_last_prec_update ps).
  assert (Enl : (if update_preconditioner ps then (nt, no, false) else (n_iterations_last_prec_update ps, time_step_last_prec_update ps, false)) = (nl, tl, false))
    by (unfold nl, tl; destruct (update_preconditioner ps); reflexivity).
  assert (Bn : 0 <= nl < 2147483648) by (unfold nl; destruct (update_preconditioner ps); lia).
  assert (Bt : 0 <= tl <= no) by (unfold tl; destruct (update_preconditioner ps); lia).
  rewrite Enl. cbn [n_iterations_last_prec_update time_step_last_prec_update update_preconditioner update_preconditioner_frequency orb].
  clearbody nl tl. clear Enl.
  pose proof (more_spec nt nl (12 # 10)) as M. rewrite q12 in M. revert M.
  generalize (ngtb (N:=RNum) (ofZ (N:=RNum) nt) (nmul (nlit (12 # 10) : RNum) (ofZ (N:=RNum) nl))). intros more M.
  assert (U50 : u32 (50 * update_preconditioner_frequency ps) = 50 * update_preconditioner_frequency ps) by (unfold u32; apply Z.mod_small; lia).
  assert (U2 : u32 (2 * nl) = 2 * nl) by (unfold u32; apply Z.mod_small; lia).
  assert (Us : u32 (no - tl) = no - tl) by (unfold u32; apply Z.mod_small; lia).
  assert (Us1 : u32 (no + 1 - tl) = no - tl + 1) by (unfold u32; rewrite Z.mod_small; lia).
  rewrite U50, U2, Us, Us1. clear U50 U2 Us Us1.
  assert (W : (2 * nl <? nt) = true <-> (IZR nt > 2 * IZR nl)%R).
  { rewrite Z.ltb_lt. change 2%R with (IZR 2). rewrite <- mult_IZR. split; intros; [apply Rlt_gt, IZR_lt; auto|apply lt_IZR, Rgt_lt; auto]. }
  set (f0 := if (0 <? update_preconditioner_frequency ps) && (no mod (50 * update_preconditioner_frequency ps) =? 0) then 0 else update_preconditioner_frequency ps).
  set (f1 := if more && (pm || (2 * nl <? nt)) then no - tl else f0).
  refine (conj _ (conj _ _)).
  - intros A B. unfold f1. rewrite (proj2 M A). cbn [andb].
    assert (pm || (2 * nl <? nt) = true) as ->; [|reflexivity]. apply orb_true_iff. destruct B as [B|B]; [left; tauto|right; tauto].
  - intros A. unfold f1. assert (more && (pm || (2 * nl <? nt)) = false) as ->; [|reflexivity].
    destruct A as [A|[A B]].
    + destruct more; [|reflexivity]. exfalso. apply proj1 in M. specialize (M eq_refl). lra.
    + destruct more; [|reflexivity]. cbn [andb]. apply orb_false_iff. split.
      * destruct pm; [|reflexivity]. exfalso. tauto.
      * destruct (2 * nl <? nt); [|reflexivity]. exfalso. apply proj1 in W. specialize (W eq_refl). lra.
  - clearbody f1. rewrite !orb_true_iff, !andb_true_iff, !negb_true_iff, !orb_false_iff, !Z.ltb_lt, Z.leb_le.
    rewrite M. destruct pm.
    + assert (RW) by tauto. split; [intros [[[A|A]|A]|A]|intros [A|[A|[A|A]]]]; try tauto. destruct A as [[[_ A] _] _]. discriminate A.
    + assert (~ RW) by (intros A; apply K3 in A; discriminate A).
      assert (D : forall b : bool, b = true \/ b = false) by (intros []; auto).
      split.
      * intros [[[A|A]|A]|A]; tauto.
      * intros [A|[A|[A|A]]]; try tauto.
        destruct more eqn:Em; [left; left; left; apply M; reflexivity|].
        destruct ((tl <? 3) && (14 <? no)) eqn:E3; [left; left; right; apply andb_true_iff in E3; rewrite !Z.ltb_lt in E3; exact E3|].
        destruct (no <? 2) eqn:E4; [left; right; apply Z.ltb_lt; exact E4|].
        right. split; [split; [split; [tauto|reflexivity]|lia]|lia].
Qed.
Print Assumptions C53_rebuild_frequency.
(** a stationary problem whose residual stays 1: the second solve is preceded by a build, the reference is outdone, the hypotheses hold *)
Definition ex_fpR : flow_params RNum :=
  MkFP (N:=RNum) 0 0 0 false false incompressible_stationary 0%R 0 false 0%R 0%R 0%R 0%R 2 0%R coupled_implicit_newton 5 0%R false u_amg p_mass_ilu 0 "" 0 0%R 0 false false bdf_2 0%R 0%R 0%R 0%R 0%R 0%R 0%R 0%R 0%R 0%R 0%R 0%R 0%R 0%R 0%R false 0 0 false false false false false 0 0 false.
Definition ex_oracleR : oracles (N:=RNum) Z := MkOracles (N:=RNum) Z
  (fun b tol g call => MkKrylov (N:=RNum) Z 5 0%R 1 true) (fun b tol g call => MkKrylov (N:=RNum) Z 7 0%R 1 true)
  (fun call => MkKrylov (N:=RNum) Z 5 0%R 1 true) (fun x => x) (fun x => 1%R).
Example C53_frequency_nonvacuous :
  let r := solve_nonlinear_system (N:=RNum) Z Z.add 0 ex_oracleR (fun x => x) ex_fpR (MkPrec 4 3 false 2) 7 0 1%R in
  n_linear (r_trace Z r) = 10 /\ rebuilt_within (r_trace Z r) /\ update_preconditioner_frequency (r_prec Z r) = 4 /\ update_preconditioner (r_prec Z r) = true.
Proof.
  intros r.
  assert (T : exists t1 r1 t2 r2, r_trace Z r = [LinearSolve (N:=RNum) Z t1 r1; Residual (N:=RNum) Z 1 1%R; BuildPreconditioner Z; LinearSolve (N:=RNum) Z t2 r2; Residual (N:=RNum) Z 2 1%R]
     /\ l_iterations Z r1 = 5 /\ l_iterations Z r2 = 5).
  { unfold r, solve_nonlinear_system. cbn [r_trace].
    change (Z.to_nat (fp_max_nl_iteration ex_fpR)) with 2%nat. cbn [nl_loop]. cbv zeta.
    change (is_implicit (fp_linearization ex_fpR)) with true. cbn [negb].
    assert (L : forall x, nltb (n:=RNum) (o_residual Z ex_oracleR x) (fp_tol_nl_iteration ex_fpR) = false).
    { intros x. cbn. destruct (Rltb_spec 1 0); [lra|reflexivity]. }
    rewrite !L.
    assert (D0 : build_decision (N:=RNum) ex_fpR (MkPrec 4 3 false 2) 7 0 0 false = 0).
    { unfold build_decision. cbn [update_preconditioner n_iterations_last_prec_update andb Z.eqb negb].
      assert (ngtb (N:=RNum) (ofZ (N:=RNum) 0) (nmul (nlit (15 # 10) : RNum) (ofZ (N:=RNum) 4)) = false) as ->; [|reflexivity].
      apply not_true_iff_false. rewrite more_spec, q15. lra. }
    assert (D1 : build_decision (N:=RNum) ex_fpR (MkPrec 4 3 false 2) 7 1 5 false = 2).
    { unfold build_decision. cbn [update_preconditioner n_iterations_last_prec_update andb Z.eqb negb].
      change (1 mod 6 =? 1) with true. change (is_stationary (fp_physical_type ex_fpR)) with true. rewrite orb_true_r. reflexivity. }
    cbn [ls_step ls_solution ls_res ls_n_tot ls_premature ls_trace ls_broke].
    rewrite D0. cbn [Z.eqb].
    match goal with |- context [build_decision ?a ?b ?c ?d ?e false] => change (build_decision a b c d e false) with (build_decision (N:=RNum) ex_fpR (MkPrec 4 3 false 2) 7 1 5 false) end.
    rewrite D1. cbn [Z.eqb app]. do 4 eexists. split; [reflexivity|]. split; reflexivity. }
  destruct T as (t1 & r1 & t2 & r2 & T & I1 & I2).
  assert (A : n_linear (r_trace Z r) = 10) by (rewrite T; cbn [n_linear]; rewrite I1, I2; reflexivity).
  assert (B : rebuilt_within (r_trace Z r)).
  { rewrite T. exists [LinearSolve (N:=RNum) Z t1 r1; Residual (N:=RNum) Z 1 1%R]. eexists. split; [reflexivity|]. cbn [n_solves]. lia. }
  destruct (C53_rebuild_frequency Z Z.add 0 ex_oracleR (fun x => x) ex_fpR (MkPrec 4 3 false 2) 7 0 1%R) as (F & _ & G);
    unfold small; cbn [n_iterations_last_prec_update time_step_last_prec_update update_preconditioner_frequency]; try lia;
    fold r; rewrite ?A; [lia|].
  fold r in F, G. rewrite A in F, G.
  assert (N1 : n_iterations_last_prec_update (r_prec Z r) = 4) by (unfold r, solve_nonlinear_system; reflexivity).
  assert (N2 : time_step_last_prec_update (r_prec Z r) = 3) by (unfold r, solve_nonlinear_system; reflexivity).
  rewrite N1, ?N2 in F, G.
  split; [reflexivity|]. split; [exact B|]. split; [apply F; [lra|left; exact B]|]. apply G. left. lra.
Qed.

(** ** C21 *)
Lemma advance_n_S {N : Num} n (solve : Z -> list N -> list N) s :
  advance_n (S n) solve s = advance solve (advance_n n solve s).
Proof. revert s; induction n; intros s; [reflexivity|]. cbn [advance_n] in *. rewrite IHn. reflexivity. Qed.
Lemma zip3_nth {N : Num} (c : clock N) cur old i x y :
  nth_error cur i = Some x -> nth_error old i = Some y -> nth_error (zip3 c cur old) i = Some (extrapolate c x y).
Proof.
  revert old i; induction cur as [|a cur IH]; intros [|b old] [|i]; cbn; try discriminate; auto.
  intros [= ->] [= ->]; auto.
Qed.
(** For every number of steps and every solver: the three vectors after step n+2 are the solutions of the
    steps n+2, n+1, n, and the start vector handed to the solver is the extrapolation of the last two. *)
Theorem C21_history_vectors :
  forall (N : Num) (solve : Z -> list N -> list N) (s0 : clock N * history N) (n : nat),
    let st k := snd (advance_n k solve s0) in
    let clk k := fst (advance_n k solve s0) in
    clk (S n) = next (clk n) /\
    h_old (st (S n)) = h_cur (st n) /\
    h_old_old (st (S (S n))) = h_cur (st n) /\
    exists guess, h_cur (st (S (S n))) = solve (step_no (clk (S (S n)))) guess /\
      forall i x y, nth_error (h_cur (st (S n))) i = Some x -> nth_error (h_cur (st n)) i = Some y ->
        nth_error guess i = Some (extrapolate (clk (S (S n))) x y).
Proof.
  intros N solve s0 n. cbv beta zeta. rewrite !advance_n_S. set (s := advance_n n solve s0).
  split; [reflexivity|]. split; [reflexivity|]. split; [reflexivity|].
  eexists; split; [reflexivity|]. intros i x y Hx Hy. cbn in *. apply zip3_nth; auto.
Qed.
Print Assumptions C21_history_vectors.

Lemma sadd_nth {N : Num} (s a : N) u v i x y :
  nth_error u i = Some x -> nth_error v i = Some y -> nth_error (sadd s a u v) i = Some (nadd (nmul s x) (nmul a y)).
Proof.
  revert v i; induction u as [|a' u IH]; intros [|b v] [|i]; cbn; try discriminate; auto.
  intros [= ->] [= ->]; auto.
Qed.
(** level set vectors of the two-phase solvers: shift and linear extrapolation (exact arithmetic) *)
Theorem C21_two_phase_history :
  forall (c : clock RNum) (h : history RNum),
    h_old (shift_two_phase c h) = h_cur h /\ h_old_old (shift_two_phase c h) = h_old h /\
    (old_step_size c <= 0 -> h_cur (shift_two_phase c h) = h_cur h)%R /\
    ((0 < old_step_size c)%R -> forall i (x y : R), nth_error (h_cur h) i = Some x -> nth_error (h_old h) i = Some y ->
       exists z : R, nth_error (h_cur (shift_two_phase c h)) i = Some z /\
         (z = x + (x - y) / old_step_size c * step_size c)%R).
Proof.
  intros c h. unfold shift_two_phase, ngtb. rnum. replace (Q2R (0#1)) with 0%R by (unfold Q2R; cbn; lra).
  split; [reflexivity|]. split; [reflexivity|]. cbn [h_cur].
  destruct (Rltb_spec 0 (old_step_size c)) as [L|L]; split; intros H; try (rnum; lra).
  - intros i x y Hx Hy. eexists. split; [apply (sadd_nth (N:=RNum)); eauto|]. rnum. unfold car in *. field. rnum; lra.
  - reflexivity.
Qed.
Print Assumptions C21_two_phase_history.

(** pressure prediction of the projection scheme: the documented formula for uniform BDF-2 weights *)
Theorem C21_projection_pressure_guess :
  forall (c : clock RNum) (dt p phi phi_old : R),
    (0 < dt)%R -> weight c = (3 / 2 / dt)%R -> weight_old c = (- 2 / dt)%R -> weight_old_old c = (1 / 2 / dt)%R ->
    pressure_guess c p phi phi_old = (p + 4 / 3 * phi - 1 / 3 * phi_old)%R.
Proof. intros c dt p phi po H W1 W2 W3. unfold pressure_guess. rnum. rewrite W1, W2, W3. field. lra. Qed.
Print Assumptions C21_projection_pressure_guess.

(** ** C22 *)
Lemma set_stokes_back {N : Num} (fp : flow_params N) pt pv rho :
  set_stokes (fp_physical_type fp) (fp_precondition_velocity fp) (fp_density fp) (set_stokes pt pv rho fp) = fp.
Proof. destruct fp; reflexivity. Qed.
Theorem C22_initial_stokes_restores_parameters_partial :
  forall (N : Num) (norm_positive : bool) (solver_throws : flow_params N -> bool) (flag : bool) (s s' : ns_state N),
    compute_initial_stokes_field norm_positive solver_throws flag s = Normal s' ->
    ns_fp s' = ns_fp s /\ (ns_coeff s = None -> ns_coeff s' = None) /\
    (norm_positive = true -> ns_update_prec s' = true) /\ (norm_positive = false -> s' = s).
Proof.
  intros N np st flag s s'. unfold compute_initial_stokes_field. destruct np; cbn [negb].
  - destruct (st _); [discriminate|]. intros [= <-]. cbn [ns_fp ns_coeff ns_update_prec]. rewrite set_stokes_back.
    split; [auto|]. split; [intros ->; auto|]. split; [auto|discriminate].
  - intros [= <-]. repeat split; auto; discriminate.
Qed.
Print Assumptions C22_initial_stokes_restores_parameters_partial.
Example C22_nonvacuous :
  exists s', compute_initial_stokes_field true (fun _ => false) false (MkNS ex_fp None false) = Normal s'.
Proof. eexists; reflexivity. Qed.
(** If the solver throws, the Stokes settings stay in the object. *)
Theorem C22_initial_stokes_restores_parameters_refuted :
  forall (N : Num) (flag : bool) (s : ns_state N) (solver_throws : flow_params N -> bool),
    (forall fp, solver_throws fp = true) ->
    exists s', compute_initial_stokes_field true solver_throws flag s = Thrown s' /\
      fp_physical_type (ns_fp s') = stokes /\ fp_density (ns_fp s') = nlit (0#1) /\
      fp_precondition_velocity (ns_fp s') = u_amg_linear.
Proof.
  intros N flag s st H. unfold compute_initial_stokes_field. cbn [negb]. rewrite H. eexists; split; [reflexivity|].
  cbn. auto.
Qed.
Print Assumptions C22_initial_stokes_restores_parameters_refuted.
(** With variable coefficients the density, viscosity and damping fields stay at the Stokes values. *)
Theorem C22_coefficients_restored_refuted :
  forall (N : Num) (flag : bool) (fp : flow_params N) (u : bool) (l : list (N * N * N)),
    exists s', compute_initial_stokes_field true (fun _ => false) flag (MkNS fp (Some l) u) = Normal s' /\
      ns_coeff s' = Some (map (fun _ => (fp_viscosity fp, nlit (0#1), nlit (0#1))) l).
Proof. intros. eexists. split; reflexivity. Qed.
Print Assumptions C22_coefficients_restored_refuted.

(** ** C54: pressure shift *)
Lemma zmax_list_spec l : l <> [] -> In (zmax_list l) l /\ forall x, In x l -> x <= zmax_list l.
Proof.
  destruct l as [|a l]; [contradiction|]. intros _. cbn [zmax_list].
  revert a; induction l as [|b l IH]; intros a; cbn [fold_left].
  - split; [left; auto|]. intros x [->|[]]; lia.
  - destruct (IH (Z.max a b)) as [I1 I2]. split.
    + destruct I1 as [E|E]; [|right; right; auto]. rewrite <- E. destruct (Z.max_spec a b) as [[_ ->]|[_ ->]]; [right; left|left]; auto.
    + intros x [<-|[<-|H]].
      * specialize (I2 (Z.max a b) (or_introl eq_refl)). lia.
      * specialize (I2 (Z.max a b) (or_introl eq_refl)). lia.
      * apply I2; right; auto.
Qed.
Lemma nmax_list_spec (l : list RNum) : l <> [] -> In (nmax_list l) l /\ forall x, In x l -> (x <= nmax_list l)%R.
Proof.
  destruct l as [|a l]; [contradiction|]. intros _. cbn [nmax_list].
  revert a; induction l as [|b l IH]; intros a; cbn [fold_left].
  - split; [left; auto|]. intros x [->|[]]; lra.
  - destruct (IH (nmax a b)) as [I1 I2].
    assert (M : (a <= nmax a b)%R /\ (b <= nmax a b)%R /\ (nmax a b = a \/ nmax a b = b)).
    { unfold nmax; rnum. rcase; repeat split; auto; lra. }
    destruct M as (M1 & M2 & M3). split.
    + destruct I1 as [E|E]; [|right; right; auto]. rewrite <- E. destruct M3 as [-> | ->]; [left|right; left]; auto.
    + intros x [<-|[<-|H]].
      * specialize (I2 (nmax a b) (or_introl eq_refl)). lra.
      * specialize (I2 (nmax a b) (or_introl eq_refl)). lra.
      * apply I2; right; auto.
Qed.
(** [procs]: for each process the index and the difference prescribed - computed pressure at its first
    boundary cell, if any.  The shift is the difference on a process with the smallest index (the largest
    one, should several processes have this index), so the shifted pressure takes the prescribed value at
    that point; all processes get the same shift. *)
Lemma pressure_shift_spec :
  forall (minus_max : R) (procs : list (option (Z * R))),
    procs <> [] ->
    (forall i d, In (Some (i, d)) procs -> 0 <= i < LONG_MAX /\ (minus_max < d)%R) ->
    (pressure_shift (N:=RNum) minus_max procs = None <-> forall p, In p procs -> p = None) /\
    (forall s, pressure_shift (N:=RNum) minus_max procs = Some s ->
       exists i, In (Some (i, s)) procs /\
         (forall j d, In (Some (j, d)) procs -> i <= j /\ (j = i -> (d <= s)%R))).
Proof.
  intros mm procs Hne Hwf. unfold pressure_shift.
  set (D := map (local_distance (N:=RNum)) procs).
  assert (HD : forall p, In p D -> (exists q, In q procs /\ p = local_distance (N:=RNum) q)).
  { intros p Hp. apply in_map_iff in Hp as (q & <- & Hq). eauto. }
  assert (HD' : forall q, In q procs -> In (local_distance (N:=RNum) q) D) by (intros q Hq; apply in_map; auto).
  assert (Dne : map (fun p => - fst p) D <> []) by (unfold D; destruct procs; [contradiction|discriminate]).
  destruct (zmax_list_spec _ Dne) as [Z1 Z2]. set (zm := zmax_list _) in *.
  apply in_map_iff in Z1 as (p0 & E0 & Hp0).
  assert (Min : forall p, In p D -> - zm <= fst p).
  { intros p Hp. specialize (Z2 (- fst p)).
    assert (In (- fst p) (map (fun p => - fst p) D)) by (apply (in_map (fun p => - fst p)); auto). specialize (Z2 H). lia. }
  assert (None_iff : - zm = LONG_MAX <-> forall p, In p procs -> p = None).
  { split.
    - intros E [[i d]|] Hp; auto. exfalso. specialize (Min _ (HD' _ Hp)). cbn in Min. destruct (Hwf i d Hp). lia.
    - intros H. destruct (HD _ Hp0) as (q & Hq & ->). rewrite (H q Hq) in E0. cbn in E0. unfold LONG_MAX; lia. }
  split.
  - destruct (Z.eqb_spec (- zm) LONG_MAX) as [E|E]; [tauto|]. split; [discriminate|]. intros H. apply None_iff in H. contradiction.
  - intros s. destruct (Z.eqb_spec (- zm) LONG_MAX) as [E|E]; [discriminate|]. intros [= Es].
    set (L := map (fun p : Z * RNum => if fst p =? - zm then snd p else mm) D) in *.
    assert (Lne : L <> []) by (unfold L, D; destruct procs; [contradiction|discriminate]).
    destruct (nmax_list_spec L Lne) as [N1 N2]. change (nmax_list L = s) in Es. rewrite Es in N1, N2.
    assert (Real : forall p, In p D -> fst p = - zm -> In (Some p) procs).
    { intros p Hp Ep. destruct (HD _ Hp) as ([q|] & Hq & ->); auto. exfalso. cbn in Ep. lia. }
    assert (s0 : (mm < s)%R).
    { assert (In (snd p0) L).
      { apply in_map_iff. exists p0. split; auto. rewrite (proj2 (Z.eqb_eq _ _)); auto. lia. }
      specialize (N2 _ H). assert (In (Some p0) procs) by (apply Real; auto; lia).
      destruct p0 as [i d]. destruct (Hwf i d H0). cbn in N2. lra. }
    apply in_map_iff in N1 as ([i d] & Ei & Hi). cbn in Ei. destruct (Z.eqb_spec i (- zm)) as [Ez|Ez]; [|rewrite Ei in s0; exfalso; clear - s0; rnum; lra].
    rewrite Ei in Hi. exists i. split; [apply Real; auto|].
    intros j d' Hj. specialize (HD' _ Hj) as HDj. cbn in HDj. pose proof (Min _ HDj) as M. cbn in M. split; [lia|].
    intros E2; subst j. apply N2. apply in_map_iff. exists (i, d'). split; auto. cbn. rewrite (proj2 (Z.eqb_eq _ _)); auto.
Qed.
(** [procs]: for each process the index of its first boundary cell with the prescribed and the computed
    pressure there, if it has one. *)
Theorem C54_pressure_shift :
  forall (minus_max : R) (procs : list (option (Z * (R * R)))),
    procs <> [] ->
    (forall i pr co, In (Some (i, (pr, co))) procs -> 0 <= i < LONG_MAX /\ (minus_max < pr - co)%R) ->
    let diff := map (option_map (fun p => (fst p, (fst (snd p) - snd (snd p))%R))) procs in
    (pressure_shift (N:=RNum) minus_max diff = None <-> forall p, In p procs -> p = None) /\
    (forall s, pressure_shift (N:=RNum) minus_max diff = Some s ->
       exists i pr co, In (Some (i, (pr, co))) procs /\ (co + s)%R = pr /\
         (forall j pr' co', In (Some (j, (pr', co'))) procs -> i <= j /\ (j = i -> (pr' <= co' + s)%R))).
Proof.
  intros mm procs Hne Hwf diff.
  assert (I1 : forall i pr co, In (Some (i, (pr, co))) procs -> In (Some (i, (pr - co)%R)) diff).
  { intros i pr co H. apply in_map_iff. exists (Some (i, (pr, co))). auto. }
  assert (I2 : forall i d, In (Some (i, d)) diff -> exists pr co, In (Some (i, (pr, co))) procs /\ d = (pr - co)%R).
  { intros i d H. apply in_map_iff in H as ([[j [pr co]]|] & E & H); cbn in E; [|discriminate].
    injection E as -> <-. eauto. }
  destruct (pressure_shift_spec mm diff) as [S1 S2].
  { unfold diff. destruct procs; [contradiction|discriminate]. }
  { intros i d H. destruct (I2 i d H) as (pr & co & H' & ->). eauto. }
  split.
  - rewrite S1. split.
    + intros H [[i [pr co]]|] Hp; auto. specialize (H _ (I1 _ _ _ Hp)). discriminate.
    + intros H p Hp. apply in_map_iff in Hp as (q & <- & Hq). rewrite (H q Hq). reflexivity.
  - intros s Hs. destruct (S2 s Hs) as (i & Hi & Hmin). destruct (I2 i s Hi) as (pr & co & H & ->).
    exists i, pr, co. split; [auto|]. split; [lra|]. intros j pr' co' Hj.
    destruct (Hmin _ _ (I1 _ _ _ Hj)) as [A B]. split; [auto|]. intros E; specialize (B E); lra.
Qed.
Print Assumptions C54_pressure_shift.
Example C54_nonvacuous :
  exists procs : list (option (Z * (R * R))), procs <> [] /\
    (forall i pr co, In (Some (i, (pr, co))) procs -> 0 <= i < LONG_MAX /\ (-1000 < pr - co)%R) /\
    In (Some (7, (2, 1)%R)) procs /\ In None procs.
Proof.
  exists [None; Some (7, (2, 1)%R); Some (9, (1, 3)%R)]. split; [discriminate|]. split.
  - intros i pr co [H|[H|[H|[]]]]; [discriminate|injection H as <- <- <-|injection H as <- <- <-]; unfold LONG_MAX; split; try lia; lra.
  - cbn; auto.
Qed.
