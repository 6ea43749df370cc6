(** * C92: the linear systems of the projection scheme *)
From Coq Require Import Reals ZArith List Bool Lra Lia FunctionalExtensionality.
From Verif Require Import Num SumR Model_Parameters Model_NSOperator Properties_NSOperator Model_MatrixState Properties_MatrixState Model_Transfer Model_BoundaryValues Model_Projection.
Import ListNotations.
Open Scope R_scope.
Notation projection_scheme := Model_Parameters.projection.

(** ** Divergence: specification with all cells in any order *)
Definition divergence_form (n_u : nat) (mu : dcell -> nat -> R) (cells : list dcell) (u : field) (j : nat) : R :=
  suml cells (fun c => sumn (length (dc_points c)) (fun q => let p := nth q (dc_points c) no_point in
    dp_JxW p * (- mu c q * sumn n_u (fun i => u i * dp_div p i) * dp_psi p j))).
Lemma local_divergence_value n w var nu range u dst j :
  local_divergence n w var nu range u dst j = dst j +
    suml range (fun c => sumn (length (dc_points c)) (fun q => let p := nth q (dc_points c) no_point in
      div_weight w var nu (match range with c :: _ => dc_mu c | [] => [] end) q * divergence_at n u p * dp_psi p j * dp_JxW p)).
Proof.
  unfold local_divergence. cbv zeta. generalize (match range with c :: _ => dc_mu c | [] => [] end). intros mu. revert dst.
  induction range as [|c range IH]; intros dst; cbn [fold_left suml]; [ring|]. rewrite IH. ring.
Qed.
Lemma divergence_value n w var nu ranges u dst j :
  divergence_vmult_add n w var nu ranges dst u j = dst j + suml ranges (fun range =>
    suml range (fun c => sumn (length (dc_points c)) (fun q => let p := nth q (dc_points c) no_point in
      div_weight w var nu (match range with c :: _ => dc_mu c | [] => [] end) q * divergence_at n u p * dp_psi p j * dp_JxW p))).
Proof.
  unfold divergence_vmult_add. revert dst. induction ranges as [|r ranges IH]; intros dst; cbn [fold_left suml]; [ring|].
  rewrite IH, local_divergence_value. cbv zeta. ring.
Qed.
Lemma suml_concat {A} (ls : list (list A)) f : suml (concat ls) f = suml ls (fun l => suml l f).
Proof. induction ls as [|l ls IH]; [reflexivity|]. cbn [concat suml]. rewrite suml_app, IH. reflexivity. Qed.
(** the right hand side of the Poisson problem is minus the divergence, however the cells are distributed to ranges *)
Theorem C92_divergence : forall n_u variable nu ranges u j,
  divergence_vmult_add n_u false variable nu ranges zero u j = divergence_form n_u (fun _ _ => 1) (concat ranges) u j.
Proof.
  intros. rewrite divergence_value. unfold divergence_form, zero. rewrite Rplus_0_l, suml_concat. apply suml_ext; intros r _. apply suml_ext; intros c _.
  apply sumn_ext; intros q _. cbv zeta. unfold div_weight, divergence_at. ring.
Qed.
Print Assumptions C92_divergence.
(** the right hand side of the rotational part is minus viscosity times divergence: with one viscosity always, with variable viscosities if
    every range has one cell *)
Theorem C92_rotational_partial : forall n_u nu ranges u j,
  divergence_vmult_add n_u true false nu ranges zero u j = divergence_form n_u (fun _ _ => nu) (concat ranges) u j /\
  ((forall r, In r ranges -> length r = 1%nat) ->
   divergence_vmult_add n_u true true nu ranges zero u j = divergence_form n_u (fun c q => nth q (dc_mu c) 0) (concat ranges) u j).
Proof.
  intros. split; [|intros H]; rewrite divergence_value; unfold divergence_form, zero; rewrite Rplus_0_l, suml_concat; apply suml_ext; intros r Hr.
  - apply suml_ext; intros c _. apply sumn_ext; intros q _. cbv zeta. unfold div_weight, divergence_at. ring.
  - specialize (H r Hr). destruct r as [|c [|c' r]]; try discriminate. cbn [suml]. f_equal.
    apply sumn_ext; intros q _. cbv zeta. unfold div_weight, divergence_at. ring.
Qed.
Print Assumptions C92_rotational_partial.
(** Violated otherwise: all cells of a range use the viscosities of its first cell *)
Theorem C92_violation_viscosity : forall n_u nu ranges u j,
  divergence_vmult_add n_u true true nu ranges zero u j =
  suml ranges (fun r => divergence_form n_u (fun _ q => nth q (match r with c :: _ => dc_mu c | [] => [] end) 0) r u j).
Proof.
  intros. rewrite divergence_value. unfold zero. rewrite Rplus_0_l. apply suml_ext; intros r _. apply suml_ext; intros c _.
  apply sumn_ext; intros q _. cbv zeta. unfold div_weight, divergence_at. ring.
Qed.
Print Assumptions C92_violation_viscosity.
(** so the pressure depends on the number of threads or the vectorization: two cells with viscosities 1 and 1000, in one range or in two *)
Definition ex_cell (mu : R) : dcell := MkDC [MkDP 1 (fun _ => 1) (fun _ => 1)] [mu].
Example C92_violation_viscosity_witness :
  divergence_vmult_add 1 true true 0 [[ex_cell 1; ex_cell 1000]] zero (fun _ => 1) 0%nat = -2 /\
  divergence_vmult_add 1 true true 0 [[ex_cell 1]; [ex_cell 1000]] zero (fun _ => 1) 0%nat = -1001.
Proof. split; cbn; unfold div_weight, divergence_at, zero; cbn; ring. Qed.

(** ** Poisson problem *)
(** contracts of the constraints: the Schur complement has all constraints of the pressure; the additional ones are zero Dirichlet values;
    in the shape functions the constrained unknowns of the pressure are worked in *)
Definition schur_constraints (con_p : nat -> bool) (con_schur : lines) : Prop :=
  (forall i, con_p i = true -> is_free con_schur i = false) /\
  (forall i, con_p i = false -> is_free con_schur i = false -> con_schur i = Some []).
Definition condensed (n_p : nat) (con_p : nat -> bool) (pts : list gpoint) : Prop :=
  forall p i j, In p pts -> (j < n_p)%nat -> con_p j = true -> gp_grad p i j = 0.
Lemma form_of_distributed n_p pts con_p con_schur x i : schur_constraints con_p con_schur -> condensed n_p con_p pts ->
  dirichlet_form n_p pts (fun j => if negb (is_free con_schur j) then 0 else x j) i = dirichlet_form n_p pts (distribute con_schur x) i.
Proof.
  intros [H1 H2] C. unfold dirichlet_form. apply suml_ext; intros p Hp. f_equal. apply sumn_ext; intros j Hj.
  unfold distribute. destruct (is_free con_schur j) eqn:F; cbn [negb].
  - unfold is_free in F. destruct (con_schur j); [discriminate|reflexivity].
  - destruct (con_p j) eqn:P; [rewrite (C p i j Hp Hj P); ring|]. rewrite (H2 j P F). cbn [suml]. ring.
Qed.
(** the integral of grad x . grad psi_i ([gp_grad p i j] is the product of the gradients of the shape functions i and j) and of x psi_i *)
Definition stiffness_integral (n_p : nat) (pts : list gpoint) (x : field) (i : nat) : R :=
  suml pts (fun p => sumn n_p (fun j => x j * (gp_grad p i j * gp_JxW p))).
Definition mass_integral (n_p : nat) (pts : list dpoint) (x : field) (i : nat) : R :=
  suml pts (fun p => sumn n_p (fun j => x j * dp_psi p j) * (dp_psi p i * dp_JxW p)).
Lemma stiffness_is n_p pts x i : dirichlet_form n_p pts x i = stiffness_integral n_p pts x i.
Proof. unfold dirichlet_form, stiffness_integral. apply suml_ext; intros p _. rewrite <- sumn_scal. apply sumn_ext; intros j _. ring. Qed.
Lemma mass_is n_p pts x i : mass_form n_p pts x i = mass_integral n_p pts x i.
Proof. unfold mass_form, mass_integral. apply suml_ext; intros p _. ring. Qed.
(** the weight in the equation that is solved *)
Definition weight_used (augmented : bool) (degree : nat) (weight_built weight : R) : R := if augmented || Nat.eqb degree 1 then weight_built else weight.
Theorem C92_poisson : forall augmented degree n_p pts con_p con_schur diag weight_built weight rho rho_diff x b,
  schur_constraints con_p con_schur -> condensed n_p con_p pts ->
  let con_s := fun i => negb (is_free con_schur i) in
  (forall i, (i < n_p)%nat -> poisson_operator augmented degree n_p pts con_p con_s diag weight_built weight rho rho_diff x i = b i) ->
  (forall i, (i < n_p)%nat -> is_free con_schur i = true ->
     1 / (weight_used augmented degree weight_built weight * Rmin rho (rho + rho_diff)) * stiffness_integral n_p pts (distribute con_schur x) i = b i) /\
  (forall i, con_p i = false -> is_free con_schur i = false -> distribute con_schur x i = 0).
Proof.
  intros aug deg n_p pts con_p cs diag wb w rho rd x b HS HC con_s Hx. split; [|intros i P F; unfold distribute; rewrite (proj2 HS i P F); reflexivity].
  intros i Hi F. rewrite <- (Hx i Hi), <- stiffness_is, <- (form_of_distributed n_p pts con_p cs x i HS HC).
  unfold poisson_operator, weight_used, uses_assembled. cbv zeta. set (l := schur_only n_p (fun i => i) con_s con_p).
  assert (ND : NoDup l) by (destruct (C29_index_list n_p (fun i => i) con_s con_p) as [X _]; exact X).
  destruct (C29_poisson_wrapper (aug || Nat.eqb deg 1) (assembled_poisson n_p pts con_s diag wb rho rd) (matrix_free_poisson n_p pts con_p w rho rd) l (map diag l) x ND (map_length _ _)) as (_ & T & U).
  destruct (aug || Nat.eqb deg 1).
  - rewrite (T eq_refl). unfold assembled_poisson, con_s. rewrite F. cbn [negb]. reflexivity.
  - destruct (U eq_refl) as [U1 _].
    assert (I : forall k, In k l <-> (k < n_p)%nat /\ con_s k = true /\ con_p k = false) by (destruct (C29_index_list n_p (fun i => i) con_s con_p) as (_ & _ & X); exact X).
    rewrite U1; [|rewrite I; unfold con_s; rewrite F; cbn; intros (_ & X & _); discriminate].
    unfold matrix_free_poisson. assert (P : con_p i = false) by (destruct (con_p i) eqn:P; auto; rewrite (proj1 HS i P) in F; discriminate). rewrite P.
    unfold poisson_coefficient, min_density. f_equal. unfold dirichlet_form. apply suml_ext; intros p Hp. f_equal. apply sumn_ext; intros j Hj. f_equal.
    destruct (con_p j) eqn:Pj; [rewrite (proj1 HS j Pj); reflexivity|].
    destruct (in_dec Nat.eq_dec j l) as [J|J].
    + apply I in J. destruct J as (_ & J & _). unfold con_s in J. rewrite J. reflexivity.
    + destruct (is_free cs j) eqn:Fj; [reflexivity|]. exfalso. apply J. apply I. unfold con_s. rewrite Fj. auto.
Qed.
Print Assumptions C92_poisson.
(** unknowns with constraints are decoupled: the operator is regular there, so that the Krylov solver has a unique answer *)
Theorem C92_constrained_rows : forall augmented degree n_p pts con_p con_schur diag weight_built weight rho rho_diff x,
  schur_constraints con_p con_schur -> (forall i, diag i <> 0) ->
  let con_s := fun i => negb (is_free con_schur i) in
  (forall i, (i < n_p)%nat -> poisson_operator augmented degree n_p pts con_p con_s diag weight_built weight rho rho_diff x i = 0) ->
  forall i, (i < n_p)%nat -> is_free con_schur i = false -> x i = 0.
Proof.
  intros aug deg n_p pts con_p cs diag wb w rho rd x HS HD con_s Hx i Hi F. specialize (Hx i Hi).
  unfold poisson_operator, uses_assembled in Hx. cbv zeta in Hx. set (l := schur_only n_p (fun i => i) con_s con_p) in *.
  assert (ND : NoDup l) by (destruct (C29_index_list n_p (fun i => i) con_s con_p) as [X _]; exact X).
  assert (I : forall k, In k l <-> (k < n_p)%nat /\ con_s k = true /\ con_p k = false) by (destruct (C29_index_list n_p (fun i => i) con_s con_p) as (_ & _ & X); exact X).
  destruct (C29_poisson_wrapper (aug || Nat.eqb deg 1) (assembled_poisson n_p pts con_s diag wb rho rd) (matrix_free_poisson n_p pts con_p w rho rd) l (map diag l) x ND (map_length _ _)) as (_ & T & U).
  destruct (aug || Nat.eqb deg 1).
  - rewrite (T eq_refl) in Hx. unfold assembled_poisson, con_s in Hx. rewrite F in Hx. cbn [negb] in Hx. apply Rmult_integral in Hx as [Hx|Hx]; [contradiction (HD i Hx)|exact Hx].
  - destruct (U eq_refl) as [U1 U2]. destruct (con_p i) eqn:P.
    + rewrite U1 in Hx by (rewrite I, P; intros (_ & _ & X); discriminate). unfold matrix_free_poisson in Hx. rewrite P in Hx.
      destruct (in_dec Nat.eq_dec i l) as [J|J]; [apply I in J; rewrite P in J; destruct J as (_ & _ & J); discriminate|exact Hx].
    + assert (J : In i l) by (apply I; unfold con_s; rewrite F; auto).
      destruct (In_nth l i 0%nat J) as (k & Hk & E). specialize (U2 k Hk). rewrite E in U2. rewrite U2 in Hx.
      rewrite (nth_indep _ 0 (diag 0%nat)), map_nth, E in Hx by (rewrite map_length; exact Hk). apply Rmult_integral in Hx as [Hx|Hx]; [contradiction (HD i Hx)|exact Hx].
Qed.
Print Assumptions C92_constrained_rows.
(** the right hand sides of a step: Poisson problem and rotational part have the divergence of the new velocity *)
Theorem C92_right_hand_sides : forall n_u nu ranges con_u con_schur r u j,
  let new := fun i => u i + distribute con_u (r_velocity r) i in
  (forall variable, pr_rhs_poisson (solve_projection_system n_u variable nu ranges con_u con_schur r u) j = divergence_form n_u (fun _ _ => 1) (concat ranges) new j) /\
  pr_rhs_mass (solve_projection_system n_u false nu ranges con_u con_schur r u) j = divergence_form n_u (fun _ _ => nu) (concat ranges) new j.
Proof.
  intros. split; [intros variable; exact (C92_divergence n_u variable nu ranges new j)|]. exact (proj1 (C92_rotational_partial n_u nu ranges new j)).
Qed.
Print Assumptions C92_right_hand_sides.
(** Violated for linear pressures: the matrix keeps the weight of the last build of the preconditioner, so the correction is off by the
    factor of the two weights, and the velocity after the correction is not divergence-free *)
Theorem C92_violation_stale_weight : forall augmented degree n_p pts con_p con_schur diag weight_built weight rho rho_diff x b,
  schur_constraints con_p con_schur -> condensed n_p con_p pts -> (augmented = true \/ degree = 1%nat) ->
  0 < weight_built -> 0 < weight -> 0 < Rmin rho (rho + rho_diff) ->
  (forall i, (i < n_p)%nat -> poisson_operator augmented degree n_p pts con_p (fun i => negb (is_free con_schur i)) diag weight_built weight rho rho_diff x i = b i) ->
  forall i, (i < n_p)%nat -> is_free con_schur i = true ->
     1 / (weight * Rmin rho (rho + rho_diff)) * stiffness_integral n_p pts (distribute con_schur x) i = weight_built / weight * b i.
Proof.
  intros aug deg n_p pts con_p cs diag wb w rho rd x b HS HC HA Hb Hw Hr Hx i Hi F.
  destruct (C92_poisson aug deg n_p pts con_p cs diag wb w rho rd x b HS HC Hx) as [A _]. rewrite <- (A i Hi F).
  assert (W : weight_used aug deg wb w = wb) by (unfold weight_used; destruct HA as [-> | ->]; [reflexivity|rewrite orb_true_r; reflexivity]). rewrite W. field. lra.
Qed.
Print Assumptions C92_violation_stale_weight.

(** ** Rotational part *)
Definition psi_condensed (n_p : nat) (con_p : nat -> bool) (pts : list dpoint) : Prop :=
  forall p j, In p pts -> (j < n_p)%nat -> con_p j = true -> dp_psi p j = 0.
(** chi is the L2 projection of the right hand side if the Schur complement has no constraints of its own *)
Theorem C92_mass_partial : forall n_p pts con_p con_schur x b, schur_constraints con_p con_schur -> psi_condensed n_p con_p pts ->
  (forall i, (i < n_p)%nat -> is_free con_schur i = negb (con_p i)) ->
  (forall i, (i < n_p)%nat -> matrix_free_mass n_p pts con_p x i = b i) ->
  forall i, (i < n_p)%nat -> con_p i = false -> mass_integral n_p pts (distribute con_schur x) i = b i.
Proof.
  intros n_p pts con_p cs x b [H1 H2] C E Hx i Hi P. rewrite <- (Hx i Hi), <- mass_is. unfold matrix_free_mass. rewrite P. unfold mass_form.
  apply suml_ext; intros p Hp. f_equal. f_equal. apply sumn_ext; intros j Hj. destruct (con_p j) eqn:Pj; [rewrite (C p j Hp Hj Pj); ring|].
  f_equal. unfold distribute. specialize (E j Hj). rewrite Pj in E. unfold is_free in E. destruct (cs j); [discriminate|reflexivity].
Qed.
Print Assumptions C92_mass_partial.
(** Violated where it has: at the unknown that fixes the constant of the pressure (and at open boundaries) the correction is zero, whatever
    the divergence is; so with pressure_fix the pressure gets a spike at one unknown *)
Theorem C92_violation_pinned : forall n_u variable nu ranges con_u con_schur r u i, con_schur i = Some [] ->
  pr_update_p (solve_projection_system n_u variable nu ranges con_u con_schur r u) i = 0.
Proof. intros. cbn. unfold add, distribute. rewrite H. cbn. ring. Qed.
Print Assumptions C92_violation_pinned.
(** two unknowns, both with the value -1 of the exact chi; the first one is pinned: the constant chi is not constant any more *)
Example C92_violation_pinned_witness : let pts := [MkDP 1 (fun _ => 0) (fun j => if Nat.eqb j 0 then 1 else 0); MkDP 1 (fun _ => 0) (fun j => if Nat.eqb j 1 then 1 else 0)] in
  let con_schur : lines := fun i => if Nat.eqb i 0 then Some [] else None in
  (forall i, (i < 2)%nat -> matrix_free_mass 2 pts (fun _ => false) (fun _ => -1) i = divergence_form 1 (fun _ _ => 1)
     [MkDC (map (fun p => MkDP 1 (fun _ => 1) (dp_psi p)) pts) []] (fun _ => 1) i) /\
  distribute con_schur (fun _ => -1) 0%nat = 0 /\ distribute con_schur (fun _ => -1) 1%nat = -1.
Proof.
  cbv zeta. split; [|split; cbn; reflexivity]. intros i Hi. destruct i as [|[|i]]; [| |lia]; cbn; unfold mass_form, divergence_form, divergence_at; cbn; unfold no_point, divergence_at; cbn; ring.
Qed.

(** ** Momentum equation *)
Lemma velocity_vmult_is_vmult s m0 m1 pts D i : velocity_vmult s pts D i = fst (vmult s m0 m1 pts D (fun _ => 0)) i.
Proof.
  unfold velocity_vmult, vmult. cbn [fst]. destruct (constrained_u s i); [reflexivity|]. rewrite suml_map. apply suml_ext; intros [q l] _. cbn [fst snd].
  assert (E : eval_pressure s q (masked (constrained_p s) (fun _ => 0)) = 0).
  { unfold eval_pressure. apply sumn_zero. intros j _. unfold masked. destruct (constrained_p s j); ring. }
  rewrite E. unfold test_velocity, vmult_point. cbn [o_value o_gradient]. reflexivity.
Qed.
Lemma residual_after_update s m0 m1 pts pts2 cu cp fu fp U P D ru rp pts' ru2 rp2 pts2' : s_lin s = projection_scheme ->
  zero_on (constrained_u s) D -> map fst pts2 = map fst pts ->
  residual s m0 m1 pts cu cp fu fp U P = ((ru, rp), pts') ->
  residual s m0 m1 pts2 cu cp fu fp (vplus U D) P = ((ru2, rp2), pts2') ->
  forall i, ru2 i = ru i - velocity_vmult s pts' D i.
Proof.
  intros HL HD Hp R R2 i.
  assert (Z : zero_on (constrained_p s) (fun _ => 0)) by (intros j _; reflexivity).
  assert (PP : vplus P (fun _ => 0) = P) by (apply functional_extensionality; intro; unfold vplus; ring).
  destruct (vmult s m0 m1 pts' D (fun _ => 0)) as [du dp] eqn:V.
  rewrite <- PP in R2.
  destruct (C24_residual_expansion s m0 m1 pts pts2 cu cp fu fp U P D (fun _ => 0) HD Z Hp _ _ _ _ _ _ _ _ R V R2) as [A _].
  rewrite A. rewrite (velocity_vmult_is_vmult s m0 m1), V. cbn [fst].
  assert (remainder s (map fst pts) U D i = 0) as ->; [|ring].
  unfold remainder. destruct (constrained_u s i); [reflexivity|]. rewrite HL; cbn. destruct (is_stokes_type (s_type s)); reflexivity.
Qed.
(** the velocity after the solve fulfils the momentum equation with the guess of the pressure (all test functions) if the matrix of the
    solve has the coefficients of the residual *)
Theorem C92_momentum_partial : forall (s : setting) m0 m1 pts pts2 cu cp fu fp U P D ru rp pts' ru2 rp2 pts2',
  s_lin s = projection_scheme -> zero_on (constrained_u s) D -> map fst pts2 = map fst pts ->
  residual s m0 m1 pts cu cp fu fp U P = ((ru, rp), pts') ->
  (forall i, velocity_vmult s pts' D i = ru i) ->
  residual s m0 m1 pts2 cu cp fu fp (vplus U D) P = ((ru2, rp2), pts2') ->
  forall i, ru2 i = 0.
Proof. intros. rewrite (residual_after_update _ _ _ _ _ _ _ _ _ _ _ _ _ _ _ _ _ _ H H0 H1 H2 H4), H3. ring. Qed.
Print Assumptions C92_momentum_partial.
(** Violated with AMG.  The matrix of the solve then has the coefficients of the last build of the preconditioner ... *)
Theorem C92_violation_stale_matrix : forall (A : Type) (m : matrix A) lin d v k, nonempty (linearized (cur m)) = true ->
  let built := compute true false m in
  let now := residual_state lin (set_coefficients d v k built) in
  cur now = MkFields lin d v k /\ used VelocityVmult now = cur m /\ used VelocityVmult (residual_state lin (set_coefficients d v k (MkMatrix (cur m) no_fields))) = MkFields lin d v k.
Proof.
  intros A [[l d0 v0 k0] p] lin d v k H. cbn in H. cbn. unfold velocity_vmult_state. cbn. rewrite H. cbn. auto.
Qed.
Print Assumptions C92_violation_stale_matrix.
(** ... and the momentum equation is violated by the difference of the two matrices applied to the update *)
Theorem C92_violation_momentum : forall (s : setting) m0 m1 pts pts2 cu cp fu fp U P D ru rp pts' pts_built ru2 rp2 pts2',
  s_lin s = projection_scheme -> zero_on (constrained_u s) D -> map fst pts2 = map fst pts ->
  residual s m0 m1 pts cu cp fu fp U P = ((ru, rp), pts') ->
  (forall i, velocity_vmult s pts_built D i = ru i) ->
  residual s m0 m1 pts2 cu cp fu fp (vplus U D) P = ((ru2, rp2), pts2') ->
  forall i, ru2 i = velocity_vmult s pts_built D i - velocity_vmult s pts' D i.
Proof. intros. rewrite (residual_after_update _ _ _ _ _ _ _ _ _ _ _ _ _ _ _ _ _ _ H H0 H1 H2 H4), H3. ring. Qed.
Print Assumptions C92_violation_momentum.
(** one unknown, one point: convection by the velocity 1 extrapolated from the old time levels; the preconditioner was built for fluid at
    rest.  The update 1 solves the old matrix, the momentum equation misses the convective term. *)
Definition ex_s : setting := MkSetting 1 1 1 (fun _ => false) (fun _ => false) incompressible projection_scheme 0 1 0 0 1 1 0 0.
Definition ex_point : qpoint := MkPoint 1 (fun _ _ => 1) (fun _ _ _ => 1) (fun _ => 1) 1 0 0 (fun _ => 1) (fun _ _ => 0) (fun _ => 1) (fun _ _ => 0).
Definition at_rest_stored : stored := ((fun _ => 0), (fun _ _ => 0)).
Example C92_violation_momentum_witness : exists D ru rp pts' ru2 rp2 pts2',
  let pts := [(ex_point, at_rest_stored)] in
  zero_on (constrained_u ex_s) D /\
  residual ex_s None None pts (fun _ => 0) (fun _ => 0) (fun _ => 1) (fun _ => 0) (fun _ => 0) (fun _ => 0) = ((ru, rp), pts') /\
  (forall i, (i < 1)%nat -> velocity_vmult ex_s pts D i = ru i) /\
  residual ex_s None None pts (fun _ => 0) (fun _ => 0) (fun _ => 1) (fun _ => 0) (vplus (fun _ => 0) D) (fun _ => 0) = ((ru2, rp2), pts2') /\
  ru2 0%nat = -1.
Proof.
  exists (fun _ => 1). do 6 eexists. cbv zeta. split; [intros i H; discriminate|]. split; [reflexivity|]. split; [|split; [reflexivity|]].
  - intros [|i] Hi; [|lia]. cbn. unfold vmult_point, test_velocity, eval_value, eval_gradient, stress, time_step_weight, masked, trace, extrapol. cbn. unfold trace, extrapol, eval_value, eval_gradient. cbn. lra.
  - cbn. unfold test_velocity, eval_value, eval_gradient, stress, time_step_weight, masked, trace, extrapol, vplus. cbn. unfold trace, extrapol, eval_value, eval_gradient, vplus. cbn. lra.
Qed.
(** hypotheses of the theorems on the systems are met: one pinned unknown of two *)
Example C92_nonvacuous : let con_schur : lines := fun i => if Nat.eqb i 0 then Some [] else None in
  let pts := [MkGP 1 (fun i j => if Nat.eqb i j then 1 else -1)] in
  schur_constraints (fun _ => false) con_schur /\ condensed 2 (fun _ => false) pts /\
  (forall i, (i < 2)%nat -> poisson_operator false 1 2 pts (fun _ => false) (fun i => negb (is_free con_schur i)) (fun _ => 1) (3/2) (3/2) 1 0 (fun i => if Nat.eqb i 0 then 5 else 3) i
     = (fun i => if Nat.eqb i 0 then 5 else 2) i) /\
  (forall i, (i < 2)%nat -> poisson_operator false 2 2 pts (fun _ => false) (fun i => negb (is_free con_schur i)) (fun _ => 1) 7 (3/2) 1 0 (fun i => if Nat.eqb i 0 then 5 else 3) i
     = (fun i => if Nat.eqb i 0 then 5 else 2) i).
Proof.
  assert (M : Rmin 1 (1 + 0) = 1) by (rewrite Rmin_left; lra).
  cbv zeta. split; [split; [discriminate|intros [|i] _ F; [reflexivity|discriminate]]|]. split; [intros ? ? ? _ _ X; discriminate|].
  split; intros [|[|i]] Hi; try lia; cbn; unfold assembled_poisson, matrix_free_poisson, poisson_coefficient, min_density, dirichlet_form, upd; cbn; rewrite ?M; field.
Qed.
