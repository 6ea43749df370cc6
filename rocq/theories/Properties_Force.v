(** * Body force: C61 *)
From Coq Require Import Reals List Bool Lra Lia.
From Verif Require Import SumR Model_LevelSet Model_Force.
Import ListNotations.
Open Scope R_scope.

(** velocity shape functions sum to one at each point and global numbers are below N *)
Definition velocity_space (N : nat) (c : force_cell) : Prop :=
  (forall q, (q < fc_nq c)%nat -> sumn (fc_nv c) (fc_vshape c q) = 1) /\ (forall i, (i < fc_nv c)%nat -> (fc_vdof c i < N)%nat).
(** quadrature over the mesh *)
Definition integral (cells : list force_cell) (f : force_cell -> nat -> R) : R :=
  suml cells (fun c => sumn (fc_nq c) (fun q => f c q * fc_JxW c q)).

Lemma total_cell N force c d : velocity_space N c ->
  sumn N (fun g => cell_rhs force c g d) = sumn (fc_nq c) (fun q => force c q d * fc_JxW c q).
Proof.
  intros [H1 HN]. unfold cell_rhs. rewrite sumn_swap.
  rewrite (sumn_ext (fc_nv c) _ (fun i => sumn (fc_nq c) (fun q => force c q d * fc_vshape c q i * fc_JxW c q))).
  - rewrite sumn_swap. apply sumn_ext. intros q Hq. rewrite (sumn_ext _ _ (fun i => force c q d * fc_JxW c q * fc_vshape c q i)) by (intros; ring).
    rewrite sumn_scal, H1 by exact Hq. ring.
  - intros i Hi. rewrite (sumn_delta N (fc_vdof c i)); [rewrite Nat.eqb_refl; reflexivity|apply HN; exact Hi|].
    intros g _ Hg. rewrite (proj2 (Nat.eqb_neq _ _)) by congruence. reflexivity.
Qed.
Lemma total N force cells d : (forall c, In c cells -> velocity_space N c) ->
  sumn N (fun g => user_rhs force cells g d) = integral cells (fun c q => force c q d).
Proof.
  intros H. unfold user_rhs, integral. rewrite <- suml_sumn. apply suml_ext. intros c Hc. apply total_cell. apply H. exact Hc.
Qed.
(** indicator of the second phase at a point: finite element value of the smoothed indicator (level set solvers), of
    (phase field + 1) / 2 cut to [0,1] (phase field) *)
Definition okz_indicator (c : force_cell) (q : nat) : R := sumn (fc_nls c) (fun j => fc_ls c j * fc_lshape c q j).
Definition pf_indicator (c : force_cell) (q : nat) : R := Rmin 1 (Rmax 0 ((sumn (fc_nls c) (fun j => fc_ls c j * fc_lshape c q j) + 1) / 2)).
(** the density of the fluid at a point with the given indicator *)
Definition fluid_density (p : force_parameters) (ind : force_cell -> nat -> R) (c : force_cell) (q : nat) : R :=
  fp_density p + fp_density_diff p * ind c q.
Lemma fe_value_sum n f s : fe_value n f s = sumn n (fun j => f j * s j).
Proof. reflexivity. Qed.
Lemma constant_parameters p : use_variable_parameters p = false -> fp_density_diff p = 0 /\ fp_viscosity_diff p = 0.
Proof. unfold use_variable_parameters, Reqb. destruct (Req_EM_T (fp_density_diff p) 0), (Req_EM_T (fp_viscosity_diff p) 0); cbn; intros; try discriminate. auto. Qed.
Lemma okz_actual p c q : actual_rho p (okz_density p c q) = fluid_density p okz_indicator c q.
Proof.
  unfold actual_rho. destruct (use_variable_parameters p) eqn:U.
  - unfold okz_density, okz_property, mixture. rewrite fe_value_sum. reflexivity.
  - apply constant_parameters in U as [U _]. unfold fluid_density. rewrite U. ring.
Qed.
Lemma pf_prop b d c q : phase_field_property b d (fc_nls c) (fc_ls c) (fc_lshape c q) = b + d * pf_indicator c q.
Proof. unfold phase_field_property, mixture, pf_indicator. rewrite fe_value_sum. do 4 f_equal. field. Qed.
Lemma pf_actual p c q : actual_rho p (pf_density p c q) = fluid_density p pf_indicator c q.
Proof.
  unfold actual_rho. destruct (use_variable_parameters p) eqn:U.
  - unfold pf_density. apply pf_prop.
  - apply constant_parameters in U as [U _]. unfold fluid_density. rewrite U. ring.
Qed.
(** without surface tension the force on the whole domain is the weight of the fluid, pointing downwards in the last direction *)
Theorem C61_weight : forall p N cells d, (forall c, In c cells -> velocity_space N c) -> fp_surface_tension p = 0 -> (d < fp_dim p)%nat ->
  sumn N (fun g => user_rhs (okz_force p) cells g d) =
  if Nat.eqb d (fp_dim p - 1) then - (fp_gravity p * integral cells (fluid_density p okz_indicator)) else 0.
Proof.
  intros p N cells d HN Hs Hd. rewrite total by exact HN. unfold okz_force. rewrite Hs. unfold integral. destruct (Nat.eqb d (fp_dim p - 1)).
  - rewrite <- suml_scal, <- suml_opp. apply suml_ext. intros c _. rewrite <- sumn_scal, <- sumn_opp. apply sumn_ext. intros q _.
    rewrite okz_actual. ring.
  - apply suml_zero. intros c _. apply sumn_zero. intros q _. ring.
Qed.
Theorem C61_weight_phase_field : forall p N cells d, (forall c, In c cells -> velocity_space N c) -> (d < fp_dim p)%nat ->
  (forall c j, In c cells -> fc_curv c j = 0) ->
  sumn N (fun g => user_rhs (pf_force p) cells g d) =
  if Nat.eqb d (fp_dim p - 1) then - (fp_gravity p * integral cells (fluid_density p pf_indicator)) else 0.
Proof.
  intros p N cells d HN Hd Hc. rewrite total by exact HN. unfold pf_force. unfold integral.
  assert (K : forall c q, In c cells -> curvature_value c q = 0). { intros c q H. unfold curvature_value, fe_value. apply sumn_zero. intros j _. rewrite Hc by exact H. ring. }
  destruct (Nat.eqb d (fp_dim p - 1)).
  - rewrite <- suml_scal, <- suml_opp. apply suml_ext. intros c H. rewrite <- sumn_scal, <- sumn_opp. apply sumn_ext. intros q _.
    rewrite pf_actual, K by exact H. ring.
  - apply suml_zero. intros c H. apply sumn_zero. intros q _. rewrite K by exact H. ring.
Qed.
(** the force is affine in the surface tension coefficient: capillary part proportional to it *)
Definition with_tension (p : force_parameters) (s : R) : force_parameters :=
  MkForce (fp_dim p) (fp_density p) (fp_density_diff p) (fp_viscosity p) (fp_viscosity_diff p) (fp_gravity p) s (fp_interpolate p).
Lemma cell_rhs_combine f1 f2 f3 a b c g d : (forall q, f1 c q d = a * f2 c q d + b * f3 c q d) ->
  cell_rhs f1 c g d = a * cell_rhs f2 c g d + b * cell_rhs f3 c g d.
Proof.
  intros H. unfold cell_rhs. rewrite <- !sumn_scal, <- sumn_plus. apply sumn_ext. intros i _. destruct (Nat.eqb (fc_vdof c i) g); [|ring].
  rewrite <- !sumn_scal, <- sumn_plus. apply sumn_ext. intros q _. rewrite H. ring.
Qed.
Theorem C61_linear_in_tension : forall p s t a cells g d,
  user_rhs (okz_force (with_tension p (a * s + (1 - a) * t))) cells g d =
  a * user_rhs (okz_force (with_tension p s)) cells g d + (1 - a) * user_rhs (okz_force (with_tension p t)) cells g d.
Proof.
  intros. unfold user_rhs. rewrite <- !suml_scal, <- suml_plus. apply suml_ext. intros c _. apply cell_rhs_combine. intros q.
  unfold okz_force, with_tension, actual_rho, use_variable_parameters, okz_density; cbn. ring.
Qed.
(** well balanced: with constant curvature k and the gradient taken in the pressure space, the capillary force is the discrete
    gradient of the pressure whose nodal values are tension * k * interpolated indicator; such a pressure balances it exactly *)
Definition discrete_gradient (cells : list force_cell) (P : force_cell -> nat -> R) (g d : nat) : R :=
  user_rhs (fun c q d => pressure_gradient c (P c) q d) cells g d.
Theorem C61_well_balanced : forall p k cells g d,
  fp_interpolate p = true -> fp_gravity p = 0 ->
  (forall c q, In c cells -> (q < fc_nq c)%nat -> curvature_value c q = k) ->
  user_rhs (okz_force p) cells g d = discrete_gradient cells (fun c i => fp_surface_tension p * k * projected_value c i) g d.
Proof.
  intros p k cells g d Hi Hg Hk. unfold discrete_gradient, user_rhs. apply suml_ext. intros c Hc. unfold cell_rhs. apply sumn_ext. intros i _.
  destruct (Nat.eqb (fc_vdof c i) g); [|reflexivity]. apply sumn_ext. intros q Hq. unfold okz_force. rewrite Hi, Hg, Hk by assumption. unfold pressure_gradient.
  rewrite <- sumn_scal. replace (if Nat.eqb d (fp_dim p - 1) then 0 * _ else 0) with 0 by (destruct (Nat.eqb d (fp_dim p - 1)); ring).
  rewrite Rminus_0_r. f_equal. f_equal. apply sumn_ext. intros j _. ring.
Qed.
(** phase field: with constant chemical potential k the force is the discrete gradient of k times the interpolated phase field;
    the surface tension coefficient does not enter a second time *)
Theorem C61_well_balanced_phase_field : forall p k cells g d,
  fp_gravity p = 0 ->
  (forall c q, In c cells -> (q < fc_nq c)%nat -> curvature_value c q = k) ->
  user_rhs (pf_force p) cells g d = discrete_gradient cells (fun c i => k * projected_value c i) g d.
Proof.
  intros p k cells g d Hg Hk. unfold discrete_gradient, user_rhs. apply suml_ext. intros c Hc. unfold cell_rhs. apply sumn_ext. intros i _.
  destruct (Nat.eqb (fc_vdof c i) g); [|reflexivity]. apply sumn_ext. intros q Hq. unfold pf_force. rewrite Hg, Hk by assumption. unfold pressure_gradient.
  rewrite <- sumn_scal. replace (if Nat.eqb d (fp_dim p - 1) then 0 * _ else 0) with 0 by (destruct (Nat.eqb d (fp_dim p - 1)); ring).
  rewrite Rminus_0_r. f_equal. f_equal. apply sumn_ext. intros j _. ring.
Qed.
(** whenever the phases differ in density or in viscosity, both tables of the flow operator hold the values of the mixture *)
Theorem C61_tables : forall p c old q, fp_density_diff p <> 0 \/ fp_viscosity_diff p <> 0 ->
  okz_table p c old q = (fluid_density p okz_indicator c q, fp_viscosity p + fp_viscosity_diff p * okz_indicator c q) /\
  pf_table p c old q = (fluid_density p pf_indicator c q, fp_viscosity p + fp_viscosity_diff p * pf_indicator c q).
Proof.
  intros p c old q H. destruct (use_variable_parameters p) eqn:U; [|apply constant_parameters in U; tauto].
  pose proof (okz_actual p c q) as A. pose proof (pf_actual p c q) as B. unfold actual_rho in A, B. rewrite U in A, B.
  unfold okz_table, pf_table. rewrite U, A, B, pf_prop. split; reflexivity.
Qed.
(** with one and the same fluid on both sides the tables of the operator are left as they are *)
Theorem C61_one_fluid : forall p c old q, fp_density_diff p = 0 -> fp_viscosity_diff p = 0 -> okz_table p c old q = old q /\ pf_table p c old q = old q.
Proof.
  intros p c old q H1 H2. assert (U : use_variable_parameters p = false).
  { unfold use_variable_parameters, Reqb. rewrite H1, H2. destruct (Req_EM_T 0 0); [reflexivity|lra]. }
  unfold okz_table, pf_table. rewrite U. split; reflexivity.
Qed.
Print Assumptions C61_one_fluid.
Example C61_one_fluid_nonvacuous : okz_table (MkForce 2 1 0 1 0 10 2 true) (MkFCell 1 (fun _ => 2) 2 (fun _ i => if Nat.eqb i 0 then 1/4 else 3/4) (fun i => i) 1 (fun _ _ => 1) (fun _ _ _ => 5) 1 (fun _ _ _ => 7) (fun _ _ => 1) (fun _ => 1/2) (fun _ => 3)) (fun _ => (8, 9)) 0 = (8, 9).
Proof. apply C61_one_fluid; reflexivity. Qed.
(** if the nodal values are constant on a cell there is no capillary force there: the force is concentrated at the interface *)
Theorem C61_only_at_interface : forall p c q d v,
  (forall j, (j < fc_nls c)%nat -> fc_ls c j = v) -> (d < fp_dim p - 1)%nat ->
  (forall i, (i < fc_np c)%nat -> sumn (fc_nls c) (fc_interp c i) = 1) ->
  sumn (fc_np c) (fun i => fc_pgrad c q i d) = 0 -> sumn (fc_nls c) (fun j => fc_lgrad c q j d) = 0 ->
  okz_force p c q d = 0 /\ pf_force p c q d = 0.
Proof.
  intros p c q d v Hv Hd Hi Hp Hl. assert (E : Nat.eqb d (fp_dim p - 1) = false) by (apply Nat.eqb_neq; lia).
  assert (G1 : pressure_gradient c (projected_value c) q d = 0).
  { unfold pressure_gradient, projected_value. rewrite (sumn_ext _ _ (fun i => v * fc_pgrad c q i d)); [rewrite sumn_scal, Hp; ring|].
    intros i Hin. f_equal. rewrite (sumn_ext _ _ (fun j => v * fc_interp c i j)); [rewrite sumn_scal, Hi by exact Hin; ring|]. intros j Hj. rewrite Hv by exact Hj. ring. }
  assert (G2 : ls_gradient c q d = 0).
  { unfold ls_gradient. rewrite (sumn_ext _ _ (fun j => v * fc_lgrad c q j d)); [rewrite sumn_scal, Hl; ring|]. intros j Hj. rewrite Hv by exact Hj. ring. }
  unfold okz_force, pf_force. rewrite E, G1, G2. split; [destruct (fp_interpolate p); ring|ring].
Qed.
Print Assumptions C61_weight.
Print Assumptions C61_weight_phase_field.
Print Assumptions C61_linear_in_tension.
Print Assumptions C61_well_balanced.
Print Assumptions C61_well_balanced_phase_field.
Print Assumptions C61_tables.
Print Assumptions C61_only_at_interface.
(** one cell, one point, two velocity shape functions *)
Definition C61_cell : force_cell :=
  MkFCell 1 (fun _ => 2) 2 (fun _ i => if Nat.eqb i 0 then 1/4 else 3/4) (fun i => i) 1 (fun _ _ => 1) (fun _ _ _ => 5)
          1 (fun _ _ _ => 7) (fun _ _ => 1) (fun _ => 1/2) (fun _ => 3).
Definition C61_par : force_parameters := MkForce 2 1 9 1 0 10 2 true.
Example C61_nonvacuous : velocity_space 2 C61_cell /\ curvature_value C61_cell 0 = 3 /\ user_rhs (okz_force C61_par) [C61_cell] 1 1 = (2 * 3 * (1/2 * 7) - 10 * (1 + 9/2)) * (3/4) * 2.
Proof.
  assert (U : use_variable_parameters C61_par = true).
  { unfold use_variable_parameters, Reqb. cbn. destruct (Req_EM_T 9 0); [lra|]. reflexivity. }
  split; [|split].
  - split; [intros q Hq; cbn; lra|intros [|[|i]] Hi; cbn in *; lia].
  - unfold curvature_value, fe_value. cbn. lra.
  - unfold user_rhs, cell_rhs, okz_force, actual_rho. rewrite U. cbn. unfold pressure_gradient, projected_value, curvature_value, okz_density, okz_property, mixture, fe_value. cbn. lra.
Qed.

Example C61_tables_nonvacuous : fp_density_diff C61_par <> 0 /\ okz_table C61_par C61_cell (fun _ => (0, 0)) 0 = (11/2, 1).
Proof.
  assert (H : fp_density_diff C61_par <> 0) by (cbn; lra). split; [exact H|].
  rewrite (proj1 (C61_tables C61_par C61_cell (fun _ => (0,0)) 0%nat (or_introl H))). unfold fluid_density, okz_indicator; cbn. f_equal; lra.
Qed.
