(** * C64: the fluid type prescribed on a boundary is imposed on the level set *)
From stdpp Require Import gmap numbers list.
From Coq Require Import ZArith NArith Reals Lra.
From Verif Require Import Num Model_Boundary Model_Bubble Properties_Bubble Model_LevelSetBoundary.
Local Open Scope R_scope.

(** the initial condition of setup_problem: a given field, old field zero, no step yet *)
Definition initial_run (c0 : nat -> R) : ls_run := MkRun c0 (fun _ => 0) 0.
Definition positive_steps (l : list (R * (nat -> R))) : Prop := Forall (fun x => 0 < fst x) l.

(** matrix-based solver: after every time step the prescribed value holds *)
Theorem C64_matrix : forall dof_boundary dim h c0 l i b f dt inc,
  dof_boundary i = Some b ->
  let s := configure dim h construct in
  fluid_type (ob_registry s) !! b = Some f ->
  rn_c (ls_steps (imposed_matrix dof_boundary s) (constrained dof_boundary s) (l ++ [(dt, inc)]) (initial_run c0)) i = func_value f.
Proof.
  intros db dim h c0 l i b f dt inc B s F.
  assert (G : forall r, rn_c (ls_steps (imposed_matrix db s) (constrained db s) (l ++ [(dt, inc)]) r) i = func_value f); [|apply G].
  induction l as [|[dt' inc'] l IH]; intro r; [|exact (IH _)].
  change ([] ++ [(dt, inc)])%list with [(dt, inc)]. cbn [ls_steps]. unfold ls_step, init_time_advance. cbn [rn_c].
  unfold imposed_matrix, constrained. rewrite B, F. cbn.
  lra.
Qed.

(** in terms of the calls: the fluid type of the last registration is the value after every time step *)
Theorem C64_matrix_last_registration : forall dof_boundary dim h c0 l i b ft dt inc,
  dof_boundary i = Some b -> (ft = 1 \/ ft = -1)%Z ->
  let s := configure dim (h ++ [SetOpen b None ft]) construct in
  rn_c (ls_steps (imposed_matrix dof_boundary s) (constrained dof_boundary s) (l ++ [(dt, inc)]) (initial_run c0)) i = IZR ft.
Proof.
  intros db dim h c0 l i b ft dt inc B Hft s.
  apply (C64_matrix db dim (h ++ [SetOpen b None ft])%list c0 l i b (ConstFun ft 1) dt inc B).
  cbn [configure ob_registry construct].
  assert (A : forall r, run dim (h ++ [SetOpen b None ft])%list r = fst (exec dim (SetOpen b None ft) (run dim h r))).
  { induction h as [|c h IH]; intro r; [reflexivity|exact (IH _)]. }
  rewrite A. cbn [exec]. unfold set_open_boundary. destruct Hft as [-> | ->]; cbn; apply lookup_insert.
Qed.

(** away from these boundaries both solvers add the computed increment to the value extrapolated linearly in time from the last two steps *)
Theorem C64_elsewhere : forall dof_boundary dim h c0 l i dt1 inc1 dt2 inc2 (imposed : ls_object -> nat -> option R),
  imposed = imposed_matrix dof_boundary \/ imposed = imposed_matrix_free dof_boundary ->
  let s := configure dim h construct in
  (forall b, dof_boundary i = Some b -> fluid_type (ob_registry s) !! b = None) -> 0 < dt1 ->
  let c steps := rn_c (ls_steps (imposed s) (constrained dof_boundary s) (l ++ steps) (initial_run c0)) i in
  c [(dt1, inc1); (dt2, inc2)] = c [(dt1, inc1)] + dt2 / dt1 * (c [(dt1, inc1)] - c []) + inc2 i.
Proof.
  intros db dim h c0 l i dt1 inc1 dt2 inc2 imp Himp s Hn Hdt c. subst c. cbv beta.
  assert (C : constrained db s i = false).
  { unfold constrained. destruct (db i) as [b|]; [|reflexivity]. apply bool_decide_eq_false_2. rewrite (Hn b eq_refl). intros [x E]. discriminate. }
  assert (I : imp s i = None).
  { destruct Himp as [-> | ->].
    - unfold imposed_matrix. destruct (db i) as [b|]; [|reflexivity]. rewrite (Hn b eq_refl). reflexivity.
    - unfold imposed_matrix_free. destruct (db i) as [b|]; [|reflexivity].
      change (ob_adv_dirichlet s) with (∅ : gmap bid func). now rewrite lookup_empty. }
  assert (A : forall x y r, ls_steps (imp s) (constrained db s) (x ++ y)%list r = ls_steps (imp s) (constrained db s) y (ls_steps (imp s) (constrained db s) x r)).
  { intros x y. induction x as [|[d n] x IH]; intro r; [reflexivity|exact (IH _)]. }
  rewrite !A. set (r := ls_steps _ _ l _). clearbody r. cbn [ls_steps].
  remember (ls_step (imp s) (constrained db s) dt1 inc1 r) as r1 eqn:E1.
  assert (S1 : rn_step r1 = dt1 /\ rn_old r1 = rn_c r) by (subst r1; split; reflexivity). destruct S1 as [S1 S2].
  unfold ls_step at 1, init_time_advance. cbn [rn_c]. rewrite I, C, S1, S2. rewrite Rltb_true by exact Hdt. field. lra.
Qed.

(** matrix-free solver: nothing the user registers reaches the advection operator *)
Theorem C64_violation_not_imposed : forall dof_boundary dim h i,
  imposed_matrix_free dof_boundary (configure dim h construct) i = None /\
  ob_adv_symmetry (configure dim h construct) = ∅.
Proof.
  intros db dim h i. split; [|easy]. unfold imposed_matrix_free. destruct (db i); [|easy].
  change (ob_adv_dirichlet (configure dim h construct)) with (∅ : gmap bid func). now rewrite lookup_empty.
Qed.

(** ... so the level set on such a boundary stays at its initial value for ever, whatever is prescribed *)
Theorem C64_violation_frozen : forall dof_boundary dim h c0 l i b f,
  dof_boundary i = Some b ->
  let s := configure dim h construct in
  fluid_type (ob_registry s) !! b = Some f -> positive_steps l ->
  rn_c (ls_steps (imposed_matrix_free dof_boundary s) (constrained dof_boundary s) l (initial_run c0)) i = c0 i.
Proof.
  intros db dim h c0 l i b f B s F P.
  assert (C : constrained db s i = true).
  { unfold constrained. rewrite B. apply bool_decide_eq_true_2. now exists f. }
  pose proof (proj1 (C64_violation_not_imposed db dim h i)) as I. fold s in I.
  assert (G : forall r, rn_c r i = c0 i -> (rn_old r i = c0 i \/ rn_step r <= 0) ->
     rn_c (ls_steps (imposed_matrix_free db s) (constrained db s) l r) i = c0 i).
  { induction l as [|[dt inc] l IH]; intros r H1 H2; [exact H1|].
    inversion P as [|x y P1 P2]; subst. cbn [fst] in P1. cbn [ls_steps]. apply IH; [exact P2| |].
    - unfold ls_step, init_time_advance. cbn [rn_c]. rewrite I, C.
      destruct (Rlt_dec 0 (rn_step r)) as [L|L].
      + rewrite Rltb_true by exact L. destruct H2 as [H2|H2]; [|lra]. rewrite H1, H2. field. lra.
      + rewrite Rltb_false by lra. rewrite H1. lra.
    - left. unfold ls_step, init_time_advance. cbn [rn_old]. exact H1. }
  apply G; [easy|right; cbn; lra].
Qed.

(** an inflow boundary with fluid type 1, dof 0 on it, where the initial level set is 1/2 *)
Definition ex_calls : list call := [SetOpen 3%N None 1].
Definition ex_dof (i : nat) : option bid := match i with O => Some 3%N | _ => None end.
Example C64_nonvacuous :
  let s := configure 2 ex_calls construct in
  fluid_type (ob_registry s) !! 3%N = Some (ConstFun 1 1) /\
  rn_c (ls_steps (imposed_matrix_free ex_dof s) (constrained ex_dof s) [(1/10, fun _ => 7)] (initial_run (fun _ => 1/2))) 0%nat = 1/2 /\
  rn_c (ls_steps (imposed_matrix ex_dof s) (constrained ex_dof s) [(1/10, fun _ => 7)] (initial_run (fun _ => 1/2))) 0%nat = 1.
Proof.
  intros s. assert (F : fluid_type (ob_registry s) !! 3%N = Some (ConstFun 1 1)) by reflexivity.
  split; [exact F|]. split.
  - apply (C64_violation_frozen ex_dof 2 ex_calls (fun _ => 1/2) [(1/10, fun _ => 7)] 0%nat 3%N (ConstFun 1 1) eq_refl F).
    constructor; [cbn; lra|constructor].
  - apply (C64_matrix ex_dof 2 ex_calls (fun _ => 1/2) [] 0%nat 3%N (ConstFun 1 1) (1/10) (fun _ => 7) eq_refl F).
Qed.

Print Assumptions C64_matrix.
Print Assumptions C64_matrix_last_registration.
Print Assumptions C64_elsewhere.
Print Assumptions C64_violation_not_imposed.
Print Assumptions C64_violation_frozen.
