(** * C111: material parameters act in the momentum equation *)
From Coq Require Import Reals List Bool Arith Lra Lia.
From Verif Require Import Num SumR Model_Parameters Model_MatrixState Properties_MatrixState Model_Coefficients.
From Verif Require Import Model_NSOperator Properties_NSOperator.
Import ListNotations.
Open Scope R_scope.

(** ** Specification *)
(** the solvers of the library do not write coefficients themselves *)
Definition solver_call (a : action R) : Prop := match a with Call (SetCoefficients _ _ _) => False | _ => True end.
Definition library_event (e : event) : Prop :=
  match e with InitialStokes l => Forall solver_call l | Solve a => solver_call a | _ => True end.
Definition one_fluid (fp : flow_params RNum) : Prop := fp_density_diff fp = 0 /\ fp_viscosity_diff fp = 0.
Lemma one_fluid_spec fp : variable_material fp = false <-> one_fluid fp.
Proof.
  unfold variable_material, one_fluid. destruct (Reqb_spec (fp_density_diff fp) 0) as [A|A], (Reqb_spec (fp_viscosity_diff fp) 0) as [B|B]; cbn; split; intros H; try discriminate; try tauto.
Qed.

Definition no_coefficients (f : fields R) : Prop := densities f = [] /\ viscosities f = [] /\ dampings f = [].
Lemma call_without amg a (m : matrix R) : solver_call a -> no_coefficients (cur m) /\ no_coefficients (pre m) ->
  no_coefficients (cur (act amg a m)) /\ no_coefficients (pre (act amg a m)).
Proof.
  destruct m as [[l d v k] [l' d' v' k']]. unfold no_coefficients. cbn. intros Ha ((-> & -> & ->) & -> & -> & ->).
  destruct a as [[nl|? ? ?| | | |]|diag]; try contradiction; cbn; auto.
  - unfold velocity_vmult_state. cbn. destruct l'; cbn; [destruct l; cbn; auto 10|]. auto 10.
  - destruct amg; cbn; unfold compute, pressure_mass_state, fix_linearization_point; cbn; destruct diag; cbn; auto 10.
Qed.
Lemma run_without amg l (m : matrix R) : Forall solver_call l -> no_coefficients (cur m) /\ no_coefficients (pre m) ->
  no_coefficients (cur (run amg l m)) /\ no_coefficients (pre (run amg l m)).
Proof.
  intros H. revert m. induction H as [|a l Ha Hl IH]; intros m Hm; [exact Hm|]. unfold run in *. cbn [fold_left]. apply IH. apply call_without; assumption.
Qed.
(** One fluid: in every history the density, viscosity and damping of the parameter file act at every point *)
Theorem C111_one_fluid fp l q : one_fluid fp -> Forall library_event l ->
  let f := cur (history fp l) in rho_at fp f q = fp_density fp /\ mu_at fp f q = fp_viscosity fp /\ damping_at fp f q = fp_damping fp.
Proof.
  intros Ho Hl. apply one_fluid_spec in Ho. 
  assert (G : no_coefficients (cur (history fp l)) /\ no_coefficients (pre (history fp l))).
  { unfold history. assert (G0 : no_coefficients (cur (MkMatrix (@no_fields R) no_fields)) /\ no_coefficients (pre (MkMatrix (@no_fields R) no_fields))) by (cbn; unfold no_coefficients; auto).
    revert G0. generalize (MkMatrix (@no_fields R) no_fields). induction Hl as [|e l He Hl IH]; intros m Hm; [exact Hm|]. cbn [fold_left]. apply IH. clear IH Hl.
    destruct e as [n|calls|h|a]; cbn [handle].
    - unfold setup, initialize. rewrite Ho. cbn. unfold no_coefficients. cbn. auto.
    - assert (Hm0 := Hm). apply run_without; [exact He|]. unfold stokes_coefficients. destruct Hm as [(E & _) _]. rewrite E. cbn [nonempty]. exact Hm0.
    - unfold fluid_coefficients. rewrite Ho. exact Hm.
    - apply call_without; assumption. }
  destruct G as [(A & _) _]. cbv zeta. unfold rho_at, mu_at, damping_at. rewrite A. cbn. auto.
Qed.
Print Assumptions C111_one_fluid.


(** The damping entry is a drag: it adds the force -entry * u to the momentum equation (parameters.cc:466 stores minus the entry) *)
Definition with_damping (d : R) (q : qpoint) : qpoint :=
  MkPoint (JxW q) (phi q) (dphi q) (psi q) (rho q) (mu q) d (old_value q) (old_gradient q) (old_old_value q) (old_old_gradient q).
Theorem C111_drag s m0 m1 (pts : list (qpoint * stored)) cu cp fu fp U P entry i :
  is_stokes_type (s_type s) = false -> constrained_u s i = false ->
  let res d := fst (fst (residual s m0 m1 (map (fun x => (with_damping d (fst x), snd x)) pts) cu cp fu fp U P)) in
  res (- entry) i = res 0 i - entry * suml pts (fun x => JxW (fst x) * sumn (dim s) (fun d => eval_value s (fst x) U d * phi (fst x) i d)).
Proof.
  intros St C res. unfold res.
  assert (W : forall d, fst (fst (residual s m0 m1 (map (fun x => (with_damping d (fst x), snd x)) pts) cu cp fu fp U P)) i =
    fu i - cu i - suml pts (fun x => JxW (fst x) * (sumn (dim s) (fun e => (rho (fst x) * inertia s (fst x) (eval_value s (fst x) U) (eval_gradient s (fst x) U) e - d * eval_value s (fst x) U e) * phi (fst x) i e)
       + stress_form s (fst x) (eval_gradient s (fst x) U) (eval_pressure s (fst x) P) (dphi (fst x) i)))).
  { intros d. destruct (residual s m0 m1 (map (fun x => (with_damping d (fst x), snd x)) pts) cu cp fu fp U P) as [[ru rp] pts'] eqn:E.
    destruct (C55_residual_weak_form s m0 m1 _ cu cp fu fp U P ru rp pts' E) as (A & _). cbn [fst]. rewrite (A i C), St, map_map, suml_map. reflexivity. }
  rewrite !W. rewrite <- suml_scal.
  match goal with |- _ - suml _ ?f = _ - suml _ ?g - suml _ ?h => assert (E : suml pts f = suml pts g + suml pts h) end.
  { rewrite <- suml_plus. apply suml_ext. intros x _.
    rewrite (sumn_ext _ (fun e => (_ - - entry * _) * _) (fun e => (rho (fst x) * inertia s (fst x) (eval_value s (fst x) U) (eval_gradient s (fst x) U) e - 0 * eval_value s (fst x) U e) * phi (fst x) i e
       + entry * (eval_value s (fst x) U e * phi (fst x) i e))) by (intros; ring).
    rewrite sumn_plus, sumn_scal. ring. }
  rewrite E. ring.
Qed.
Print Assumptions C111_drag.

(** ** Two fluids: reference description of the coefficients *)
Inductive content := Constants | StokesOnly | Indicator (h : list R).
(** number of points, whether the preconditioner has been computed on this mesh, content of the coefficient fields *)
Record expected := MkExpected { ex_points : nat; ex_computed : bool; ex_content : content }.
(** order of calls: operators of the preconditioner are applied after it has been computed; vectors fit the mesh *)
Definition expect_call (a : action R) (x : expected) : option expected :=
  match a with
  | Compute _ => Some (MkExpected (ex_points x) true (ex_content x))
  | Call (Residual l) => if Nat.eqb (length l) (ex_points x) then Some x else None
  | Call (SetCoefficients _ _ _) => None
  | Call Vmult => Some x
  | Call _ => if ex_computed x then Some x else None
  end.
Definition expect_calls (l : list (action R)) (x : option expected) : option expected :=
  fold_left (fun x a => match x with Some x => expect_call a x | None => None end) l x.
Definition expect_event (e : event) (x : option expected) : option expected :=
  match e, x with
  | Setup n, _ => if Nat.eqb n 0 then None else Some (MkExpected n false Constants)
  | InitialStokes calls, Some x => expect_calls calls (Some (MkExpected (ex_points x) (ex_computed x) StokesOnly))
  | NewIndicator h, Some x => if Nat.eqb (length h) (ex_points x) then Some (MkExpected (ex_points x) (ex_computed x) (Indicator h)) else None
  | Solve a, Some x => expect_call a x
  | _, None => None
  end.
(** None: the sequence of calls is not one that the solvers make *)
Definition expect (l : list event) : option expected := fold_left (fun x e => expect_event e x) l None.

Section TwoFluids.
Variable fp : flow_params RNum.
Hypothesis Hv : variable_material fp = true.
Notation ex := (is_velocity_explicit fp).
Definition right_content (n : nat) (c : content) (f : fields R) : Prop :=
  match c with
  | Constants => densities f = repeat (fp_density fp) n /\ viscosities f = repeat (fp_viscosity fp) n
  | StokesOnly => densities f = repeat 0 n /\ viscosities f = repeat (fp_viscosity fp) n
  | Indicator h => densities f = map (fun x => fp_density fp + fp_density_diff fp * x) h /\ viscosities f = map (fun x => fp_viscosity fp + fp_viscosity_diff fp * x) h
  end /\ dampings f = repeat 0 n.
Definition right (x : expected) (m : matrix R) : Prop :=
  (0 < ex_points x)%nat /\ sized (ex_points x) ex true (cur m) /\ (ex_computed x = true -> sized (ex_points x) ex true (pre m)) /\ right_content (ex_points x) (ex_content x) (cur m).
Lemma call_right a x y m : expect_call a x = Some y -> right x m -> right y (act true a m).
Proof.
  intros E (N & C & P & D). unfold right. destruct m as [c p]. cbn [cur pre] in *.
  assert (Restored : forall f, ex_computed x = true ->
     (f = @velocity_vmult_state R \/ f = @pressure_poisson_state R \/ f = @pressure_mass_state R) -> snd (f (MkMatrix c p)) = MkMatrix c p).
  { intros f Hc Hf. specialize (P Hc). destruct C as (C1 & C2 & C3 & C4), P as (P1 & P2 & P3 & P4). destruct Hf as [-> |[-> | ->]].
    - apply (proj1 (C27_velocity_vmult_restores (MkMatrix c p))). cbn. intros Z. rewrite Z in P1. cbn in P1. apply length_zero_nil. rewrite C1. exact (eq_sym P1).
    - apply (proj1 (C27_pressure_poisson_vmult_restores (MkMatrix c p))). cbn. intros _ Z. rewrite Z in C2. cbn in C2. lia.
    - apply (proj1 (C27_pressure_mass_vmult_restores (MkMatrix c p))). cbn. intros Z. rewrite Z in P3. cbn in P3. lia. }
  destruct a as [[nl|? ? ?| | | |]|diag]; cbn [expect_call] in E.
  - destruct (Nat.eqb_spec (length nl) (ex_points x)) as [L|]; [|discriminate E]. inversion E; subst y; clear E. cbn [act step residual_state cur pre].
    split; [exact N|]. split; [|split; [exact P|exact D]]. destruct C as (C1 & C2 & C3 & C4). unfold sized. cbn. split; [|auto].
    destruct (nonempty (linearized c)) eqn:Z; [|exact C1]. destruct ex; [|exact L]. apply length_zero_nil in C1. rewrite C1 in Z. discriminate Z.
  - discriminate E.
  - inversion E; subst y. cbn. auto.
  - destruct (ex_computed x) eqn:K; [|discriminate E]. inversion E; subst y. cbn [act step]. rewrite (Restored _ eq_refl (or_introl eq_refl)). rewrite K. auto.
  - destruct (ex_computed x) eqn:K; [|discriminate E]. inversion E; subst y. cbn [act step]. rewrite (Restored _ eq_refl (or_intror (or_introl eq_refl))). rewrite K. auto.
  - destruct (ex_computed x) eqn:K; [|discriminate E]. inversion E; subst y. cbn [act step]. rewrite (Restored _ eq_refl (or_intror (or_intror eq_refl))). rewrite K. auto.
  - inversion E; subst y; clear E. cbn [ex_points ex_content ex_computed act compute fix_linearization_point cur].
    assert (R2 : forall b : bool, (if b then snd (pressure_mass_state (MkMatrix c c)) else MkMatrix c c) = MkMatrix c c).
    { intros [|]; [|reflexivity]. apply (proj1 (C27_pressure_mass_vmult_restores (MkMatrix c c))). cbn. auto. }
    unfold compute, fix_linearization_point. cbn [cur]. rewrite R2. cbn. auto.
Qed.
Lemma calls_none l : expect_calls l None = None.
Proof. induction l as [|a l IH]; [reflexivity|exact IH]. Qed.
Lemma calls_right l : forall x y m, expect_calls l (Some x) = Some y -> right x m -> right y (run true l m).
Proof.
  induction l as [|a l IH]; intros x y m E R; [inversion E; subst; exact R|]. change (expect_calls l (expect_call a x) = Some y) in E.
  change (right y (run true l (act true a m))). destruct (expect_call a x) as [z|] eqn:Z; [|rewrite calls_none in E; discriminate E].
  apply (IH z); [exact E|]. apply (call_right a x); assumption.
Qed.
Lemma map_const {X} (v : R) (l : list X) n : length l = n -> map (fun _ => v) l = repeat v n.
Proof. revert n. induction l as [|a l IH]; intros [|n] H; try discriminate H; [reflexivity|]. cbn. f_equal. apply IH. cbn in H. lia. Qed.
Lemma history_right l x : amg_velocity fp = true -> expect l = Some x -> right x (history fp l).
Proof.
  intros Am. unfold history, expect. revert x. induction l as [|e l IH] using rev_ind; intros x; [discriminate|]. rewrite !fold_left_app. cbn [fold_left].
  set (m := fold_left (fun m e => handle fp e m) l _) in *. set (o := fold_left (fun x e => expect_event e x) l None) in *. intros E.
  destruct e as [n|calls|h|a]; cbn [expect_event handle] in *.
  - destruct (Nat.eqb_spec n 0) as [|N]; [destruct o; discriminate E|]. assert (E2 : Some (MkExpected n false Constants) = Some x) by (destruct o; exact E). inversion E2; subst x.
    unfold right, setup. cbn [ex_points ex_computed ex_content]. destruct (C27_initialize n (variable_material fp) ex 0 (fp_density fp) (fp_viscosity fp) 0 0 m) as (_ & _ & A1 & A2 & A3 & A4 & _).
    rewrite Hv in *. cbv zeta in A1, A2, A3, A4. split; [lia|]. split; [|split; [discriminate|]].
    + unfold sized. rewrite A1, A2, A3, A4, !repeat_length. split; [destruct ex; [reflexivity|apply repeat_length]|auto].
    + unfold right_content. auto.
  - destruct o as [y|]; [|discriminate E]. specialize (IH y eq_refl). destruct IH as (N & (C1 & C2 & C3 & C4) & P & (_ & D)).
    apply (calls_right calls (MkExpected (ex_points y) (ex_computed y) StokesOnly)); [exact E|]. unfold right, stokes_coefficients. cbn [ex_points ex_computed ex_content].
    destruct (nonempty (densities (cur m))) eqn:Z; [|apply nonempty_false in Z; rewrite Z in C2; cbn in C2; lia]. cbn [cur pre set_coefficients].
    split; [exact N|]. split; [|split; [exact P|]].
    + unfold sized. cbn. rewrite !map_length. auto.
    + unfold right_content. cbn. rewrite (map_const _ _ _ C2), (map_const _ _ _ C3), (map_const _ _ _ C4). auto.
  - destruct o as [y|]; [|discriminate E]. specialize (IH y eq_refl). destruct IH as (N & (C1 & C2 & C3 & C4) & P & (_ & D)).
    destruct (Nat.eqb_spec (length h) (ex_points y)) as [L|]; [|discriminate E]. inversion E; subst x; clear E. unfold right, fluid_coefficients. rewrite Hv. cbn [cur pre set_coefficients ex_points ex_computed ex_content].
    split; [exact N|]. split; [|split; [exact P|]].
    + unfold sized. cbn. rewrite !map_length. auto.
    + unfold right_content. cbn. auto.
  - destruct o as [y|]; [|discriminate E]. rewrite Am. apply (call_right a y); [exact E|]. apply IH. reflexivity.
Qed.
(** the coefficients the momentum equation sees *)
Lemma nth_const (v : R) n q : (q < n)%nat -> nth q (repeat v n) 0 = v.
Proof. intros H. rewrite (nth_indep _ 0 v) by (rewrite repeat_length; exact H). apply nth_repeat. Qed.
Lemma seen l x q : amg_velocity fp = true -> expect l = Some x -> (q < ex_points x)%nat ->
  let f := cur (history fp l) in
  (match ex_content x with
   | Constants => rho_at fp f q = fp_density fp /\ mu_at fp f q = fp_viscosity fp
   | StokesOnly => rho_at fp f q = 0 /\ mu_at fp f q = fp_viscosity fp
   | Indicator h => rho_at fp f q = fp_density fp + fp_density_diff fp * nth q h 0 /\ mu_at fp f q = fp_viscosity fp + fp_viscosity_diff fp * nth q h 0
   end) /\ damping_at fp f q = 0.
Proof.
  intros Am E Hq f. destruct (history_right l x Am E) as (N & (C1 & C2 & C3 & C4) & P & (D & Dd)). fold f in C1, C2, C3, C4, D, Dd.
  assert (On : nonempty (densities f) = true) by (apply nonempty_true; intros Z; rewrite Z in C2; cbn in C2; lia).
  unfold rho_at, mu_at, damping_at, field_or. rewrite On. split; [|rewrite Dd; apply nth_const; exact Hq].
  destruct (ex_content x) as [| |h]; destruct D as [D1 D2].
  - rewrite D1, D2. rewrite !nth_const by exact Hq. auto.
  - rewrite D1, D2. rewrite !nth_const by exact Hq. auto.
  - assert (L : (q < length h)%nat) by (rewrite D1, map_length in C2; lia). rewrite D1, D2.
    assert (M : forall g : R -> R, nth q (map g h) 0 = g (nth q h 0)).
    { intros g. rewrite (nth_indep (map g h) 0 (g 0)) by (rewrite map_length; exact L). apply map_nth. }
    rewrite !M. auto.
Qed.
End TwoFluids.

(** Two fluids, AMG preconditioner: once the indicator has been handed over after the last set-up or Stokes solve, density and viscosity are those
    of the fluids, weighted with the indicator; before that they are those of the first fluid *)
(** the condition on the parameters, in terms of the entry "velocity preconditioner type" *)
Definition amg_preconditioner (fp : flow_params RNum) : Prop := fp_precondition_velocity fp = u_amg \/ fp_precondition_velocity fp = u_amg_linear.
Lemma amg_spec fp : amg_preconditioner fp -> amg_velocity fp = true.
Proof. unfold amg_velocity. intros [-> | ->]; reflexivity. Qed.
Theorem C111_two_fluids fp l n b h q : ~ one_fluid fp -> amg_preconditioner fp -> expect l = Some (MkExpected n b (Indicator h)) -> (q < n)%nat ->
  let f := cur (history fp l) in
  rho_at fp f q = (1 - nth q h 0) * fp_density fp + nth q h 0 * (fp_density fp + fp_density_diff fp) /\
  mu_at fp f q = (1 - nth q h 0) * fp_viscosity fp + nth q h 0 * (fp_viscosity fp + fp_viscosity_diff fp).
Proof.
  intros Ho Am E Hq f. assert (Hv : variable_material fp = true) by (destruct (variable_material fp) eqn:V; [reflexivity|exfalso; apply Ho, one_fluid_spec, V]).
  destruct (seen fp Hv l _ q (amg_spec fp Am) E Hq) as ((A & B) & _). fold f in A, B. rewrite A, B. split; ring.
Qed.
Theorem C111_before_indicator fp l n b q : ~ one_fluid fp -> amg_preconditioner fp -> expect l = Some (MkExpected n b Constants) -> (q < n)%nat ->
  let f := cur (history fp l) in rho_at fp f q = fp_density fp /\ mu_at fp f q = fp_viscosity fp.
Proof.
  intros Ho Am E Hq f. assert (Hv : variable_material fp = true) by (destruct (variable_material fp) eqn:V; [reflexivity|exfalso; apply Ho, one_fluid_spec, V]).
  exact (proj1 (seen fp Hv l _ q (amg_spec fp Am) E Hq)).
Qed.
(** but the damping entry has no effect with two fluids, in any history *)
Theorem C111_violation_damping fp l x q : ~ one_fluid fp -> amg_preconditioner fp -> expect l = Some x -> (q < ex_points x)%nat ->
  damping_at fp (cur (history fp l)) q = 0.
Proof.
  intros Ho Am E Hq. assert (Hv : variable_material fp = true) by (destruct (variable_material fp) eqn:V; [reflexivity|exfalso; apply Ho, one_fluid_spec, V]).
  exact (proj2 (seen fp Hv l _ q (amg_spec fp Am) E Hq)).
Qed.
(** and after compute_initial_stokes_field the density is zero at every point until the indicator is handed over again, whatever is solved in between *)
Theorem C111_violation_stokes fp l n b q : ~ one_fluid fp -> amg_preconditioner fp -> expect l = Some (MkExpected n b StokesOnly) -> (q < n)%nat ->
  rho_at fp (cur (history fp l)) q = 0.
Proof.
  intros Ho Am E Hq. assert (Hv : variable_material fp = true) by (destruct (variable_material fp) eqn:V; [reflexivity|exfalso; apply Ho, one_fluid_spec, V]).
  exact (proj1 (proj1 (seen fp Hv l _ q (amg_spec fp Am) E Hq))).
Qed.
Print Assumptions C111_two_fluids.
Print Assumptions C111_before_indicator.
Print Assumptions C111_violation_damping.
Print Assumptions C111_violation_stokes.

(** the order of calls in a two-phase run: set-up, initial Stokes field, new indicator, first time step (the preconditioner is computed, then
    residuals and linear solves), next indicator *)
Example C111_nonvacuous :
  expect [Setup 2; InitialStokes [Compute true; Call (Residual [0; 0]); Call VelocityVmult]; NewIndicator [0; 1];
          Solve (Compute false); Solve (Call (Residual [1; 2])); Solve (Call Vmult); Solve (Call PoissonVmult); NewIndicator [/ 2; 1]; Solve (Call (Residual [1; 2]))]
  = Some (MkExpected 2 true (Indicator [/ 2; 1])) /\
  expect [Setup 2; InitialStokes [Compute true; Call (Residual [0; 0]); Call VelocityVmult]; Solve (Compute false); Solve (Call (Residual [1; 2]))]
  = Some (MkExpected 2 true StokesOnly).
Proof. split; reflexivity. Qed.
