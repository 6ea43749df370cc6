(** * C91: the projection scheme; C92: its linear systems *)
From Coq Require Import Reals ZArith QArith Qreals List Bool Lra Lia FunctionalExtensionality.
From Verif Require Import Num NumQ SumR Model_TimeStepping Spec_TimeStepping Transfer_TimeStepping Proofs_TimeStepping2 Model_NonlinearSolver Model_MatrixState Properties_MatrixState Model_Transfer Model_BoundaryValues Model_Projection.
Import Num. Import ListNotations.
Open Scope R_scope.

Lemma put_same n b x v : put n b x v n b = x.
Proof. unfold put. replace (vname_eqb n n) with true by (destruct n; reflexivity). rewrite Nat.eqb_refl. reflexivity. Qed.
Lemma put_diff n b x v n' b' : vname_eqb n n' && Nat.eqb b b' = false -> put n b x v n' b' = v n' b'.
Proof. intros H. unfold put. rewrite H. reflexivity. Qed.
Lemma last_cons {A} (l : list A) (a d : A) : last (a :: l) d = last l a.
Proof. revert a d. induction l as [|x l IH]; intros a d; [reflexivity|]. change (last (a :: x :: l) d) with (last (x :: l) d). rewrite !IH. reflexivity. Qed.
Ltac puts := repeat first [rewrite put_same|rewrite put_diff by reflexivity].

(** ** C91: the history of the pressure *)
Section Run.
Context (n_u : nat) (variable : bool) (nu : R) (ranges : list (list dcell)) (con_u con_schur : lines).
Let tstep := projection_time_step n_u variable nu ranges con_u con_schur.
Let trun := projection_run n_u variable nu ranges con_u con_schur.
(** the two pressure corrections of a step: phi of the Poisson problem and chi of the rotational part *)
Definition phi_of (st : proj_step) : field := distribute con_schur (r_poisson (ps_results st)).
Definition chi_of (st : proj_step) : field := distribute con_schur (r_mass (ps_results st)).
(** the pressure after a list of steps: p^k = finish (p^{k-1} + phi^k + chi^k) *)
Fixpoint pressure_after (steps : list proj_step) (p : field) : field :=
  match steps with [] => p | st :: steps => pressure_after steps (ps_finish_p st (fun i => p i + (chi_of st i + phi_of st i))) end.

(** one step after the first, from any state: the guess for velocity and pressure, and the result *)
Theorem C91_step : forall st v, (1 < step_no (ps_clock st))%Z ->
  let c := ps_clock st in
  (* the fields the momentum equation is evaluated with *)
  started st v Sol 0%nat = ps_apply_bc st (fun i => extrapolate c (v Sol 0%nat i) (v Old 0%nat i)) /\
  started st v Old 0%nat = v Sol 0%nat /\ started st v OldOld 0%nat = v Old 0%nat /\
  (forall i, started st v Sol 1%nat i = v Sol 1%nat i - weight_old c / weight c * v Old 1%nat i - weight_old_old c / weight c * v OldOld 1%nat i) /\
  (* the result: corrections are added to the pressure of the last step, not to the guess *)
  (forall i, tstep v st Sol 0%nat i = started st v Sol 0%nat i + distribute con_u (r_velocity (ps_results st)) i) /\
  tstep v st Sol 1%nat = ps_finish_p st (fun i => v Sol 1%nat i + (chi_of st i + phi_of st i)) /\
  (* the histories *)
  tstep v st Old 0%nat = v Sol 0%nat /\ tstep v st OldOld 0%nat = v Old 0%nat /\
  tstep v st Old 1%nat = phi_of st /\ tstep v st OldOld 1%nat = v Old 1%nat.
Proof.
  intros st v H. cbv zeta. unfold tstep, projection_time_step.
  assert (S : shift_projection (ps_clock st) (shift_block (ps_clock st) 0%nat v) =
     let w := shift_block (ps_clock st) 0%nat v in
     put Sol 1%nat (fun i => pressure_guess (ps_clock st) (w Sol 1%nat i) (w Old 1%nat i) (w OldOld 1%nat i))
       (put Upd 1%nat (w Sol 1%nat) (put OldOld 1%nat (w Old 1%nat) w))).
  { unfold shift_projection. replace (1 <? step_no (ps_clock st))%Z with true by (symmetry; apply Z.ltb_lt; exact H). reflexivity. }
  assert (E : started st v = let w := shift_block (ps_clock st) 0%nat v in
     put Sol 0%nat (ps_apply_bc st (w Sol 0%nat)) (put Sol 1%nat (fun i => pressure_guess (ps_clock st) (w Sol 1%nat i) (w Old 1%nat i) (w OldOld 1%nat i))
       (put Upd 1%nat (w Sol 1%nat) (put OldOld 1%nat (w Old 1%nat) w)))).
  { unfold started. rewrite S. cbv zeta. puts. reflexivity. }
  cbv zeta in E. unfold shift_block in E. cbv zeta in E.
  assert (A : forall n b, started st v n b = put Sol 0%nat (ps_apply_bc st (fun i => extrapolate (ps_clock st) (v Sol 0%nat i) (v Old 0%nat i)))
     (put Sol 1%nat (fun i => pressure_guess (ps_clock st) (v Sol 1%nat i) (v Old 1%nat i) (v OldOld 1%nat i))
       (put Upd 1%nat (v Sol 1%nat) (put OldOld 1%nat (v Old 1%nat) (put Old 0%nat (v Sol 0%nat) (put OldOld 0%nat (v Old 0%nat) v))))) n b).
  { intros n b. rewrite E. puts. destruct n, b as [|[|b]]; puts; reflexivity. }
  set (s := started st v) in *. clearbody s. clear E S.
  assert (B0 : s Sol 0%nat = ps_apply_bc st (fun i => extrapolate (ps_clock st) (v Sol 0%nat i) (v Old 0%nat i))) by (rewrite A; puts; reflexivity).
  assert (B1 : s Upd 1%nat = v Sol 1%nat) by (rewrite A; puts; reflexivity).
  assert (B2 : s Sol 1%nat = fun i => pressure_guess (ps_clock st) (v Sol 1%nat i) (v Old 1%nat i) (v OldOld 1%nat i)) by (rewrite A; puts; reflexivity).
  assert (B3 : s Old 0%nat = v Sol 0%nat) by (rewrite A; puts; reflexivity).
  assert (B4 : s OldOld 0%nat = v Old 0%nat) by (rewrite A; puts; reflexivity).
  assert (B5 : s OldOld 1%nat = v Old 1%nat) by (rewrite A; puts; reflexivity).
  split; [exact B0|]. split; [exact B3|]. split; [exact B4|].
  split; [intros i; rewrite B2; unfold pressure_guess; rnum; reflexivity|].
  unfold finished. cbv zeta. unfold solve_projection_system. cbn [pr_phi pr_update_p pr_update_u].
  split; [intros i; puts; reflexivity|].
  split; [puts; rewrite B1; reflexivity|].
  split; [puts; exact B3|]. split; [puts; exact B4|]. split; [puts; reflexivity|]. puts. exact B5.
Qed.
(** the first step: without corrections in the past the guess of the pressure is the initial pressure *)
Theorem C91_first_step_partial : forall st v, step_no (ps_clock st) = 1%Z ->
  started st v Sol 1%nat = v Sol 1%nat /\
  tstep v st Sol 1%nat = ps_finish_p st (fun i => v Upd 1%nat i + (chi_of st i + phi_of st i)) /\
  tstep v st Old 1%nat = phi_of st /\ tstep v st OldOld 1%nat = zero /\
  started st v Sol 0%nat = ps_apply_bc st (fun i => extrapolate (ps_clock st) (v Sol 0%nat i) (v Old 0%nat i)) /\
  (forall i, tstep v st Sol 0%nat i = started st v Sol 0%nat i + distribute con_u (r_velocity (ps_results st)) i) /\
  tstep v st Old 0%nat = v Sol 0%nat.
Proof.
  intros st v H. unfold tstep, projection_time_step.
  assert (A : forall n b, started st v n b = put Sol 0%nat (ps_apply_bc st (fun i => extrapolate (ps_clock st) (v Sol 0%nat i) (v Old 0%nat i)))
     (put Old 1%nat zero (put OldOld 1%nat zero (put Old 0%nat (v Sol 0%nat) (put OldOld 0%nat (v Old 0%nat) v)))) n b).
  { intros n b. unfold started, shift_projection. rewrite H. cbn [Z.ltb Z.eqb Z.compare Pos.compare Pos.compare_cont Pos.eqb]. unfold shift_block. cbv zeta. puts.
    destruct n, b as [|[|b]]; puts; reflexivity. }
  set (s := started st v) in *. clearbody s.
  assert (B1 : s Upd 1%nat = v Upd 1%nat) by (rewrite A; puts; reflexivity).
  assert (B3 : s Old 0%nat = v Sol 0%nat) by (rewrite A; puts; reflexivity).
  split; [rewrite A; puts; reflexivity|].
  unfold finished. cbv zeta. unfold solve_projection_system. cbn [pr_phi pr_update_p pr_update_u].
  split; [puts; rewrite B1; reflexivity|].
  split; [puts; reflexivity|]. split; [puts; rewrite A; puts; reflexivity|].
  split; [rewrite A; puts; reflexivity|]. split; [intros i; puts; reflexivity|]. puts. exact B3.
Qed.

Lemma run_later : forall steps v, (forall st, In st steps -> (1 < step_no (ps_clock st))%Z) ->
  trun steps v Sol 1%nat = pressure_after steps (v Sol 1%nat) /\
  trun steps v Old 1%nat = last (map phi_of steps) (v Old 1%nat) /\
  trun steps v OldOld 1%nat = match steps with [] => v OldOld 1%nat | _ => last (removelast (map phi_of steps)) (v Old 1%nat) end.
Proof.
  intros steps. unfold trun, projection_run. induction steps as [|st steps IH] using rev_ind; intros v H; [cbn; auto|].
  rewrite fold_left_app. cbn [fold_left].
  destruct (IH v) as (A & B & C); [intros s Hs; apply H; apply in_or_app; left; exact Hs|].
  set (w := fold_left _ steps v) in *.
  destruct (C91_step st w) as (_ & _ & _ & _ & _ & P & _ & _ & O & OO); [apply H; apply in_or_app; right; left; reflexivity|].
  change (projection_time_step n_u variable nu ranges con_u con_schur w st) with (tstep w st). rewrite P, O, OO, A, B.
  split; [|split].
  - clear. generalize (v Sol 1%nat). induction steps as [|s steps IH]; intros p; cbn; [reflexivity|]. apply IH.
  - rewrite map_app. cbn [map]. rewrite last_last. reflexivity.
  - rewrite map_app. cbn [map]. rewrite removelast_last. destruct (steps ++ [st]) eqn:E; [destruct steps; discriminate|reflexivity].
Qed.
(** any number of steps: the pressure collects all corrections, the two stored corrections are the last two *)
Theorem C91_run : forall st steps v,
  step_no (ps_clock st) = 1%Z -> (forall s, In s steps -> (1 < step_no (ps_clock s))%Z) ->
  trun (st :: steps) v Sol 1%nat = pressure_after (st :: steps) (v Upd 1%nat) /\
  trun (st :: steps) v Old 1%nat = last (map phi_of (st :: steps)) zero /\
  trun (st :: steps) v OldOld 1%nat = last (removelast (map phi_of (st :: steps))) zero.
Proof.
  intros st steps v H Hs. unfold trun, projection_run. cbn [fold_left]. change (fold_left _ steps ?w) with (trun steps w).
  change (projection_time_step n_u variable nu ranges con_u con_schur v st) with (tstep v st).
  destruct (C91_first_step_partial st v H) as (_ & P & O & OO & _). destruct (run_later steps (tstep v st) Hs) as (A & B & C). rewrite P, O in *. rewrite OO in C.
  split; [exact A|]. split.
  - rewrite B. cbn [map]. symmetry. apply last_cons.
  - rewrite C. destruct steps as [|s steps]; [reflexivity|]. cbn [map].
    change (removelast (phi_of st :: phi_of s :: map phi_of steps)) with (phi_of st :: removelast (phi_of s :: map phi_of steps)).
    symmetry. apply last_cons.
Qed.
(** Violated in the first step: the initial pressure enters the guess but not the result.  The content of the update vector (zero after
    the setup) takes its place, whatever the initial pressure is. *)
Theorem C91_violation_initial_pressure : forall st v p p' steps, step_no (ps_clock st) = 1%Z -> (forall s, In s steps -> (1 < step_no (ps_clock s))%Z) ->
  v Upd 1%nat = zero ->
  trun (st :: steps) (put Sol 1%nat p v) Sol 1%nat = trun (st :: steps) (put Sol 1%nat p' v) Sol 1%nat /\
  (r_poisson (ps_results st) = zero -> r_mass (ps_results st) = zero -> ps_finish_p st = (fun x => x) ->
   trun [st] (put Sol 1%nat p v) Sol 1%nat = zero).
Proof.
  intros st v p p' steps H Hs U. destruct (C91_run st steps (put Sol 1%nat p v) H Hs) as (A & _). destruct (C91_run st steps (put Sol 1%nat p' v) H Hs) as (A' & _).
  rewrite A, A'. split; [reflexivity|]. intros R1 R2 F.
  destruct (C91_run st [] (put Sol 1%nat p v) H) as (B & _); [intros s []|]. rewrite B. cbn [pressure_after]. rewrite F. puts. rewrite U. unfold chi_of, phi_of. rewrite R1, R2.
  assert (D : distribute con_schur zero = zero).
  { apply functional_extensionality; intro i. unfold distribute, zero. destruct (con_schur i) as [l|]; [|reflexivity]. apply suml_zero. intros; ring. }
  rewrite D. apply functional_extensionality; intro i. unfold zero. ring.
Qed.
End Run.
Print Assumptions C91_step.
Print Assumptions C91_first_step_partial.
Print Assumptions C91_run.
Print Assumptions C91_violation_initial_pressure.

(** *** Why the guess of the pressure contains the corrections.  In the textbook scheme every step ends with a velocity uh that satisfies
    rho w (uh - u) + grad phi = 0 with the weight w of that step; the next momentum equation uses these velocities in the time derivative
    and the pressure of the last step.  The code never computes uh.  [M] is the mass matrix, [G] the pressure gradient. *)
Definition linear_map (G : field -> field) : Prop := forall a b x y i, G (fun k => a * x k + b * y k) i = a * G x i + b * G y i.
Definition end_of_step (M G : field -> field) (rho w : R) (u uh phi : field) : Prop := forall i, rho * w * (M uh i - M u i) + G phi i = 0.
Lemma linear_map_1 G a x i : linear_map G -> G (fun k => a * x k) i = a * G x i.
Proof. intros L. pose proof (L a 0 x x i) as E. replace (fun k => a * x k + 0 * x k) with (fun k => a * x k) in E by (apply functional_extensionality; intro; ring). rewrite E. ring. Qed.
Lemma linear_map_guess G a b p x y i : linear_map G -> G (fun k => p k - a * x k - b * y k) i = G p i - a * G x i - b * G y i.
Proof.
  intros L. replace (fun k => p k - a * x k - b * y k) with (fun k => 1 * p k + (-1) * (a * x k + b * y k)) by (apply functional_extensionality; intro; ring).
  rewrite (L 1 (-1) p (fun k => a * x k + b * y k) i), (L a b x y i). ring.
Qed.
(** with the same weight in the last three steps the momentum equation of the code is that of the textbook scheme *)
Theorem C91_prediction_partial : forall (M G : field -> field) rho st v uh uh_old,
  (1 < step_no (ps_clock st))%Z -> linear_map M -> linear_map G ->
  let c := ps_clock st in weight c <> 0 ->
  end_of_step M G rho (weight c) (v Sol 0%nat) uh (v Old 1%nat) -> end_of_step M G rho (weight c) (v Old 0%nat) uh_old (v OldOld 1%nat) ->
  forall i, rho * (weight_old c * M uh i + weight_old_old c * M uh_old i) + G (v Sol 1%nat) i =
            rho * (weight_old c * M (started st v Old 0%nat) i + weight_old_old c * M (started st v OldOld 0%nat) i) + G (started st v Sol 1%nat) i.
Proof.
  intros M G rho st v uh uo H LM LG c Hw E1 E2 i.
  destruct (C91_step 0 false 0 [] (fun _ => None) (fun _ => None) st v H) as (_ & O & OO & P & _). fold c in P. rewrite O, OO.
  replace (started st v Sol 1%nat) with (fun k => v Sol 1%nat k - weight_old c / weight c * v Old 1%nat k - weight_old_old c / weight c * v OldOld 1%nat k)
    by (apply functional_extensionality; intro k; symmetry; apply P).
  rewrite linear_map_guess by exact LG. specialize (E1 i). specialize (E2 i).
  assert (A : G (v Old 1%nat) i = - (rho * weight c * (M uh i - M (v Sol 0%nat) i))) by lra.
  assert (B : G (v OldOld 1%nat) i = - (rho * weight c * (M uo i - M (v Old 0%nat) i))) by lra.
  rewrite A, B. field. exact Hw.
Qed.
(** in general the two differ by the corrections of the last two steps times the change of the weights *)
Theorem C91_violation_prediction : forall (M G : field -> field) rho w1 w2 st v uh uh_old,
  (1 < step_no (ps_clock st))%Z -> linear_map M -> linear_map G ->
  let c := ps_clock st in weight c <> 0 -> w1 <> 0 -> w2 <> 0 ->
  end_of_step M G rho w1 (v Sol 0%nat) uh (v Old 1%nat) -> end_of_step M G rho w2 (v Old 0%nat) uh_old (v OldOld 1%nat) ->
  forall i, rho * (weight_old c * M uh i + weight_old_old c * M uh_old i) + G (v Sol 1%nat) i =
            rho * (weight_old c * M (started st v Old 0%nat) i + weight_old_old c * M (started st v OldOld 0%nat) i) + G (started st v Sol 1%nat) i
            + (weight_old c / weight c - weight_old c / w1) * G (v Old 1%nat) i + (weight_old_old c / weight c - weight_old_old c / w2) * G (v OldOld 1%nat) i.
Proof.
  intros M G rho w1 w2 st v uh uo H LM LG c Hw H1 H2 E1 E2 i.
  destruct (C91_step 0 false 0 [] (fun _ => None) (fun _ => None) st v H) as (_ & O & OO & P & _). fold c in P. rewrite O, OO.
  replace (started st v Sol 1%nat) with (fun k => v Sol 1%nat k - weight_old c / weight c * v Old 1%nat k - weight_old_old c / weight c * v OldOld 1%nat k)
    by (apply functional_extensionality; intro k; symmetry; apply P).
  rewrite linear_map_guess by exact LG. specialize (E1 i). specialize (E2 i).
  assert (A : G (v Old 1%nat) i = - (rho * w1 * (M uh i - M (v Sol 0%nat) i))) by lra.
  assert (B : G (v OldOld 1%nat) i = - (rho * w2 * (M uo i - M (v Old 0%nat) i))) by lra.
  rewrite A, B. field. auto.
Qed.
(** this happens in every run with BDF-2: the second step uses 4/3 of the first correction instead of 2 *)
Definition q_two : ts_params QNum := MkTP (N:=QNum) bdf_2 0%Q 10%Q 1%Q 5%Q (1#10)%Q.
Example C91_violation_prediction_second_step : exists (p : ts_params RNum), let c1 := next (ts_init p) in let c2 := next c1 in
  step_no c2 = 2%Z /\ weight c2 <> 0 /\ weight c1 <> 0 /\ (- weight_old c2 / weight c2 = 4 / 3 /\ - weight_old c2 / weight c1 = 2).
Proof.
  exists (qparams q_two). qclock q_two.
  set (c1 := next (ts_init q_two)). set (c2 := next c1).
  unfold weight, weight_old, step_no. cbn [map_clock weight_val weight_old_val step_no_val].
  replace (weight_val c1) with (1#1)%Q by (vm_compute; reflexivity).
  replace (weight_val c2) with (3#2)%Q by (vm_compute; reflexivity).
  replace (weight_old_val c2) with (-2#1)%Q by (vm_compute; reflexivity).
  split; [vm_compute; reflexivity|]. unfold Q2R; cbn [Qnum Qden]. rnum. repeat split; lra.
Qed.
Print Assumptions C91_prediction_partial.
Print Assumptions C91_violation_prediction.

(** *** A steady state stays: divergence-free velocity, balanced momentum (the velocity solver returns zero), no correction in the
    history.  Whatever the number and sizes of the steps, velocity and pressure do not change.  The other two solvers are only assumed to
    return zero for a zero right hand side. *)
Definition keeps_zero (n_u : nat) (variable : bool) (nu : R) (ranges : list (list dcell)) (con_u con_schur : lines) (u p : field) (st : proj_step) : Prop :=
  (1 < step_no (ps_clock st))%Z /\ (forall x, extrapolate (ps_clock st) x x = x) /\ ps_apply_bc st u = u /\ ps_finish_p st p = p /\ r_velocity (ps_results st) = zero /\
  (let r := solve_projection_system n_u variable nu ranges con_u con_schur (ps_results st) u in
   (pr_rhs_poisson r = zero -> r_poisson (ps_results st) = zero) /\ (pr_rhs_mass r = zero -> r_mass (ps_results st) = zero)).
Lemma distribute_zero con : distribute con zero = zero.
Proof. apply functional_extensionality; intro i. unfold distribute, zero. destruct (con i) as [l|]; [|reflexivity]. apply suml_zero. intros; ring. Qed.
Lemma add_zero (a : field) : add a zero = a.
Proof. apply functional_extensionality; intro i. unfold add, zero. ring. Qed.
Lemma divergence_zero n_u w var nu ranges u : (forall c q, In c (concat ranges) -> In q (dc_points c) -> divergence_at n_u u q = 0) ->
  divergence_vmult_add n_u w var nu ranges zero u = zero.
Proof.
  intros H. unfold divergence_vmult_add.
  assert (G : forall rs dst, (forall r, In r rs -> In r ranges) -> fold_left (fun dst range => local_divergence n_u w var nu range u dst) rs dst = dst).
  { induction rs as [|r rs IH]; intros dst Hr; [reflexivity|]. cbn [fold_left]. rewrite IH by (intros; apply Hr; right; assumption).
    unfold local_divergence. cbv zeta. generalize (match r with c :: _ => dc_mu c | [] => [] end). intros mu.
    assert (K : forall cs d, (forall c, In c cs -> In c r) -> fold_left (fun (dst : field) c => fun j => dst j + sumn (length (dc_points c)) (fun q =>
       div_weight w var nu mu q * divergence_at n_u u (nth q (dc_points c) no_point) * dp_psi (nth q (dc_points c) no_point) j * dp_JxW (nth q (dc_points c) no_point))) cs d = d).
    { induction cs as [|c cs IHc]; intros d Hc; [reflexivity|]. cbn [fold_left]. rewrite IHc by (intros; apply Hc; right; assumption).
      apply functional_extensionality; intro j. rewrite sumn_zero; [ring|]. intros q Hq. rewrite (H c); [ring| |apply nth_In; exact Hq].
      apply in_concat. exists r. split; [apply Hr; left; reflexivity|apply Hc; left; reflexivity]. }
    apply K. auto. }
  apply G. auto.
Qed.
Theorem C91_steady : forall n_u variable nu ranges con_u con_schur steps v,
  let u := v Sol 0%nat in let p := v Sol 1%nat in
  v Old 0%nat = u -> v Old 1%nat = zero -> v OldOld 1%nat = zero ->
  (forall c q, In c (concat ranges) -> In q (dc_points c) -> divergence_at n_u u q = 0) ->
  (forall st, In st steps -> keeps_zero n_u variable nu ranges con_u con_schur u p st) ->
  projection_run n_u variable nu ranges con_u con_schur steps v Sol 0%nat = u /\
  projection_run n_u variable nu ranges con_u con_schur steps v Sol 1%nat = p /\
  (forall st, In st steps -> started st (projection_run n_u variable nu ranges con_u con_schur steps v) Sol 1%nat = p).
Proof.
  intros n_u var nu ranges con_u con_schur steps v u p. intros O O1 OO1 Hd Hs.
  assert (G : let w := projection_run n_u var nu ranges con_u con_schur steps v in w Sol 0%nat = u /\ w Sol 1%nat = p /\ w Old 0%nat = u /\ w Old 1%nat = zero /\ w OldOld 1%nat = zero).
  { unfold projection_run. assert (E : v Sol 0%nat = u) by reflexivity. assert (E1 : v Sol 1%nat = p) by reflexivity. clearbody u p. revert v O O1 OO1 E E1.
    induction steps as [|st steps IH]; intros v O O1 OO1 E E1; [cbn; auto|]. cbn [fold_left].
    destruct (Hs st (or_introl eq_refl)) as (H1 & H2 & H3 & H4 & H5 & H6 & H7).
    destruct (C91_step n_u var nu ranges con_u con_schur st v H1) as (A & B & C & D & F & P & Q & R1 & S1 & T).
    assert (U : started st v Sol 0%nat = u). { rewrite A, E, O. transitivity (ps_apply_bc st u); [|exact H3]. f_equal. apply functional_extensionality; intro i. apply H2. }
    assert (X : projection_time_step n_u var nu ranges con_u con_schur v st Sol 0%nat = u).
    { apply functional_extensionality; intro i. rewrite F, U, H5, distribute_zero. unfold zero. ring. }
    assert (UC : add u (distribute con_u (r_velocity (ps_results st))) = u) by (rewrite H5, distribute_zero; apply add_zero).
    cbn in H6, H7. rewrite UC in H6, H7. rewrite divergence_zero in H6, H7 by exact Hd.
    apply IH; [intros; apply Hs; right; assumption| | | |exact X|].
    - rewrite Q. exact E.
    - rewrite S1. unfold phi_of. rewrite H6 by reflexivity. apply distribute_zero.
    - rewrite T. exact O1.
    - rewrite P. unfold phi_of, chi_of. rewrite H6, H7 by reflexivity. rewrite !distribute_zero. rewrite E1. transitivity (ps_finish_p st p); [|exact H4]. f_equal. apply functional_extensionality; intro i. unfold zero. ring. }
  destruct G as (G1 & G2 & G3 & G4 & G5). split; [exact G1|split; [exact G2|]]. intros st Hst. destruct (Hs st Hst) as (H1 & _).
  destruct (C91_step n_u var nu ranges con_u con_schur st (projection_run n_u var nu ranges con_u con_schur steps v) H1) as (_ & _ & _ & D & _).
  apply functional_extensionality; intro i. rewrite D, G2, G4, G5. unfold zero. ring.
Qed.
Print Assumptions C91_steady.
(** a run of two steps with nonzero corrections: 1 and 2 from the Poisson problem, 1/2 in the first step from the rotational part *)
Definition ex_clock (n : Z) : clock RNum := MkClock (N:=RNum) 0 10 bdf_2 1 5 (1/10) 1 1 1 (3/2) (-2) (1/2) 2 (-1) n false false 2 1 1 0.
Definition ex_step (n : Z) (phi chi : R) : proj_step := MkStep (ex_clock n) (fun u => u) (MkResults zero (fun _ => phi) (fun _ => chi)) (fun p => p).
Example C91_nonvacuous : let run := projection_run 1 false 1 [] (fun _ => None) (fun _ => None) in
  run [ex_step 1 1 (1/2); ex_step 2 2 0] (fun _ _ => zero) Sol 1%nat 0%nat = 7/2 /\
  started (ex_step 3 0 0) (run [ex_step 1 1 (1/2); ex_step 2 2 0] (fun _ _ => zero)) Sol 1%nat 0%nat = 7/2 + 4/3 * 2 - 1/3 * 1.
Proof.
  cbv zeta. destruct (C91_run 1 false 1 [] (fun _ => None) (fun _ => None) (ex_step 1 1 (1/2)) [ex_step 2 2 0] (fun _ _ => zero)) as (A & B & C);
    [reflexivity|intros s [<-|[]]; reflexivity|].
  split; [rewrite A; cbn; unfold zero; lra|].
  destruct (C91_step 1 false 1 [] (fun _ => None) (fun _ => None) (ex_step 3 0 0) (projection_run 1 false 1 [] (fun _ => None) (fun _ => None) [ex_step 1 1 (1/2); ex_step 2 2 0] (fun _ _ => zero)) ltac:(reflexivity)) as (_ & _ & _ & D & _).
  rewrite D, A, B, C. cbn. unfold distribute, zero. cbn. lra.
Qed.
Example C91_steady_nonvacuous : let v : vectors := fun n b => match n, b with Sol, _ => fun _ => 3 | Old, O => fun _ => 3 | _, _ => zero end in
  let cell := MkDC [MkDP 1 (fun i => if Nat.eqb i 0 then 1 else -1) (fun _ => 1)] [] in
  (forall c q, In c (concat [[cell]]) -> In q (dc_points c) -> divergence_at 2 (v Sol 0%nat) q = 0) /\
  keeps_zero 2 false 1 [[cell]] (fun _ => None) (fun _ => None) (v Sol 0%nat) (v Sol 1%nat) (ex_step 2 0 0).
Proof.
  cbv zeta. split.
  - intros c q [<-|[]] [<-|[]]. unfold divergence_at. cbn. ring.
  - split; [reflexivity|]. split; [intros x; unfold extrapolate; cbn; rnum; ring|]. repeat split; auto.
Qed.
