(** * Body force of the matrix-based level set solver: C93 *)
From Coq Require Import Reals List Bool Lra Lia.
From Verif Require Import SumR Model_BoundaryValues Properties_BoundaryValues Model_LevelSet Model_Force Model_MatrixForce.
Import ListNotations.
Open Scope R_scope.

(** ** Specification *)
(** finite element values: of the velocity with coefficients V; of a level set field with nodal values u; its gradient *)
Definition velocity_value (c : mforce_cell) (V : nat -> R) (q d : nat) : R := sumn (kc_nv c) (fun a => V (kc_vdof c a) * kc_vshape c q a d).
Definition field_value (I : interpolation) (c : mforce_cell) (u : nat -> R) (q : nat) : R := sumn (k_nls I) (fun j => u j * kc_lshape c q j).
Definition field_gradient (I : interpolation) (c : mforce_cell) (u : nat -> R) (q d : nat) : R := sumn (k_nls I) (fun j => u j * kc_lgrad c q j d).
(** contract of mapping and element: the gradients of the pressure shape functions on cell c ([pgrad]) and on the first cell come from
    the same reference gradients, and inverse_jacobian inverts jacobian *)
Definition mapped (dim : nat) (I : interpolation) (c : mforce_cell) (pgrad : nat -> nat -> nat -> R) : Prop :=
  exists (ref : nat -> nat -> nat -> R) (invJ0 : nat -> nat -> nat -> R),
    (forall q i d, (d < dim)%nat -> pgrad q i d = sumn dim (fun a => kc_invJ c q a d * ref q i a)) /\
    (forall q i d, (d < dim)%nat -> k_pgrad0 I q i d = sumn dim (fun a => invJ0 q a d * ref q i a)) /\
    (forall q a b, (a < dim)%nat -> (b < dim)%nat -> sumn dim (fun e => invJ0 q a e * k_jac0 I q e b) = if Nat.eqb a b then 1 else 0).
(** gradient of the pressure with nodal values P *)
Definition pressure_gradient_of (I : interpolation) (pgrad : nat -> nat -> nat -> R) (P : nat -> R) (q d : nat) : R :=
  sumn (k_np I) (fun i => P i * pgrad q i d).
(** the value of a level set field at pressure node i *)
Definition at_pressure_node (I : interpolation) (u : nat -> R) (i : nat) : R := sumn (k_nls I) (fun j => k_shape I i j * u j).
(** share of the second fluid at a point: the Heaviside function, or (level set + 1) / 2 *)
Definition share (p : mforce_parameters) (I : interpolation) (c : mforce_cell) (q : nat) : R :=
  if kp_from_heaviside p then field_value I c (kc_H c) q else (field_value I c (kc_phi c) q + 1) / 2.
Definition density_at (p : mforce_parameters) (I : interpolation) (c : mforce_cell) (q : nat) : R :=
  kp_density p + kp_density_diff p * share p I c q.
(** nodal values of the share up to a constant *)
Definition share_field (p : mforce_parameters) (c : mforce_cell) (j : nat) : R := if kp_from_heaviside p then kc_H c j else kc_phi c j / 2.
(** continuous surface force: tension * curvature * gradient of the share, taken in the pressure space on request; gravity downwards in
    the last direction *)
Definition share_gradient (p : mforce_parameters) (I : interpolation) (c : mforce_cell) (pgrad : nat -> nat -> nat -> R) (u : nat -> R) (q d : nat) : R :=
  if kp_interpolate p then pressure_gradient_of I pgrad (at_pressure_node I u) q d else field_gradient I c u q d.
Definition weight_at (p : mforce_parameters) (I : interpolation) (c : mforce_cell) (q d : nat) : R :=
  if Nat.eqb d (kp_dim p - 1) then kp_gravity p * density_at p I c q else 0.
Definition surface_force (p : mforce_parameters) (I : interpolation) (c : mforce_cell) (pgrad : nat -> nat -> nat -> R) (q d : nat) : R :=
  kp_tension p * field_value I c (kc_w c) q * share_gradient p I c pgrad (share_field p c) q d - weight_at p I c q d.
(** time weights of the implicit schemes *)
Definition implicit_clock (t : mclock) : Prop := (k_step_no t <= 1)%nat \/ (k_tau1 t = 1 /\ k_tau2 t = 0).

(** ** Lemmas *)
Lemma reference_gradients dim I c pgrad q d u : mapped dim I c pgrad -> (d < dim)%nat ->
  sumn dim (fun a => kc_invJ c q a d * gradient_on_p dim I u q a) = pressure_gradient_of I pgrad (at_pressure_node I u) q d.
Proof.
  intros (ref & invJ0 & H1 & H0 & HI) Hd.
  assert (G : forall j b, (b < dim)%nat -> gradients_c dim I j q b = ref q j b).
  { intros j b Hb. unfold gradients_c. rewrite (sumn_ext dim _ (fun a => sumn dim (fun e => ref q j e * (invJ0 q e a * k_jac0 I q a b)))).
    - rewrite sumn_swap. rewrite (sumn_ext dim _ (fun e => ref q j e * (if Nat.eqb e b then 1 else 0))).
      + rewrite (sumn_delta dim b); [rewrite Nat.eqb_refl; ring|exact Hb|]. intros e _ He. rewrite (proj2 (Nat.eqb_neq _ _) He). ring.
      + intros e He. rewrite sumn_scal, HI by assumption. reflexivity.
    - intros a Ha. rewrite H0 by exact Ha. rewrite <- sumn_scal. apply sumn_ext. intros e _. ring. }
  rewrite (sumn_ext dim _ (fun a => sumn (k_np I) (fun j => value_on_p I u j * (kc_invJ c q a d * ref q j a)))).
  - rewrite sumn_swap. unfold pressure_gradient_of. apply sumn_ext. intros j _. rewrite sumn_scal, <- H1 by exact Hd. f_equal.
    unfold value_on_p, at_pressure_node. apply sumn_ext. intros; ring.
  - intros a Ha. unfold gradient_on_p. rewrite <- sumn_scal. apply sumn_ext. intros j _. rewrite G by exact Ha. ring.
Qed.
Lemma share_gradient_scale p I c pgrad (a : R) u q d : share_gradient p I c pgrad (fun j => a * u j) q d = a * share_gradient p I c pgrad u q d.
Proof.
  unfold share_gradient. destruct (kp_interpolate p).
  - unfold pressure_gradient_of. rewrite <- sumn_scal. apply sumn_ext. intros i _. unfold at_pressure_node.
    rewrite (sumn_ext (k_nls I) _ (fun j => a * (k_shape I i j * u j))) by (intros; ring). rewrite sumn_scal. ring.
  - unfold field_gradient. rewrite <- sumn_scal. apply sumn_ext. intros; ring.
Qed.
Lemma variable_false p : variable_parameters p = false -> kp_density_diff p = 0 /\ kp_viscosity_diff p = 0.
Proof. unfold variable_parameters, Rnz. destruct (Req_EM_T (kp_density_diff p) 0), (Req_EM_T (kp_viscosity_diff p) 0); cbn; intros; try discriminate; auto. Qed.
Lemma phase_value_share p I c q b d : phase_value p I c q b d = b + d * share p I c q.
Proof. unfold phase_value, share, c_values, c_field, mvalue, field_value. destruct (kp_from_heaviside p); [reflexivity|field]. Qed.
Lemma m_rho_density p I c q : m_rho p I c q = density_at p I c q.
Proof.
  unfold m_rho, density_at. destruct (variable_parameters p) eqn:E; [apply phase_value_share|]. apply variable_false in E as [E _]. rewrite E. ring.
Qed.
Lemma capillary_general p t I c pgrad q d : mapped (kp_dim p) I c pgrad -> (d < kp_dim p)%nat ->
  capillary p t I c q d =
  kp_tension p * (tau1 t * field_value I c (kc_w c) q + tau2 t * w_values_old p t I c q) *
  ((if kp_from_heaviside p then 1 else 1 / 2) *
   (tau1 t * share_gradient p I c pgrad (c_field p c) q d +
    tau2 t * (if use_old t then share_gradient p I c pgrad (kc_phi_old c) q d else 0))).
Proof.
  intros HM Hd. unfold capillary, share_gradient, grad_c, c_gradients, c_gradients_old, curvature. cbv zeta. destruct (kp_interpolate p) eqn:Ei.
  - pose proof (reference_gradients _ _ _ _ q d (c_field p c) HM Hd) as E1. pose proof (reference_gradients _ _ _ _ q d (kc_phi_old c) HM Hd) as E2.
    rewrite <- E1, <- E2. unfold w_values, mvalue, field_value.
    set (K := tau1 t * _ + tau2 t * w_values_old p t I c q). set (s := if kp_from_heaviside p then 1 else 1 / 2).
    rewrite (sumn_ext (kp_dim p) _ (fun a => (K * kp_tension p * s * tau1 t) * (kc_invJ c q a d * gradient_on_p (kp_dim p) I (c_field p c) q a) +
      (K * kp_tension p * s * tau2 t) * (kc_invJ c q a d * (if use_old t then gradient_on_p (kp_dim p) I (kc_phi_old c) q a else 0)))) by (intros; ring).
    rewrite sumn_plus, !sumn_scal. destruct (use_old t); [ring|]. rewrite (sumn_zero (kp_dim p) (fun i => kc_invJ c q i d * 0)) by (intros; ring). ring.
  - unfold w_values, mvalue, field_value, mgradient, field_gradient. destruct (use_old t); ring.
Qed.
Lemma implicit_weights t : implicit_clock t -> tau1 t = 1 /\ tau2 t = 0.
Proof. unfold tau1, tau2. intros [H|[H1 H2]]; destruct (Nat.ltb_spec 1 (k_step_no t)); auto; lia. Qed.
Lemma c_field_share p c : (fun j => (if kp_from_heaviside p then 1 else 1 / 2) * c_field p c j) = share_field p c.
Proof. unfold share_field, c_field. destruct (kp_from_heaviside p); apply FunctionalExtensionality.functional_extensionality; intros j; [ring|lra]. Qed.

(** ** Theorems *)
(** the assembled vector is the virtual work of the force, for every velocity that fulfils the constraints; earlier contents do not matter *)
Theorem C93_virtual_work : forall p t I con cells before V N,
  fulfils con V -> (forall c a mw, In c cells -> (a < kc_nv c)%nat -> In mw (expand con (kc_vdof c a)) -> (fst mw < N)%nat) ->
  sumn N (fun g => V g * m_user_rhs p t I con cells before g) =
  suml cells (fun c => sumn (kc_nq c) (fun q => kc_JxW c q * sumn (kp_dim p) (fun d => m_force p t I c q d * velocity_value c V q d))).
Proof.
  intros p t I con cells before V N F HN. unfold m_user_rhs.
  rewrite (sumn_ext N _ (fun g => suml cells (fun c => V g * sumn (kc_nv c) (fun a => suml (expand con (kc_vdof c a)) (fun mw => if Nat.eqb (fst mw) g then snd mw * m_local_rhs p t I c a else 0)))))
    by (intros; rewrite suml_scal; ring).
  rewrite <- suml_sumn. apply suml_ext. intros c Hc.
  rewrite (sumn_ext N _ (fun g => sumn (kc_nv c) (fun a => V g * suml (expand con (kc_vdof c a)) (fun mw => if Nat.eqb (fst mw) g then snd mw * m_local_rhs p t I c a else 0))))
    by (intros; rewrite <- sumn_scal; reflexivity).
  rewrite sumn_swap. rewrite (sumn_ext (kc_nv c) _ (fun a => m_local_rhs p t I c a * V (kc_vdof c a))).
  - unfold m_local_rhs. rewrite (sumn_ext (kc_nv c) _ (fun a => sumn (kc_nq c) (fun q => kc_JxW c q * sumn (kp_dim p) (fun d => m_force p t I c q d * (V (kc_vdof c a) * kc_vshape c q a d))))).
    + rewrite sumn_swap. apply sumn_ext. intros q _. rewrite sumn_scal. f_equal. rewrite sumn_swap. apply sumn_ext. intros d _. rewrite sumn_scal. reflexivity.
    + intros a _. rewrite <- sumn_scal_r. apply sumn_ext. intros q _. rewrite (sumn_ext (kp_dim p) (fun d => m_force p t I c q d * (V (kc_vdof c a) * kc_vshape c q a d)) (fun d => V (kc_vdof c a) * (m_force p t I c q d * kc_vshape c q a d))) by (intros; ring).
      rewrite sumn_scal. ring.
  - intros a Ha. rewrite suml_delta_list by (intros mw Hmw; apply (HN c a mw Hc Ha Hmw)). rewrite expand_fulfils by exact F. ring.
Qed.
(** in the first step and in the implicit schemes the force is the continuous surface force with the current curvature and the weight *)
Theorem C93_force : forall p t I c pgrad q d,
  mapped (kp_dim p) I c pgrad -> implicit_clock t -> (d < kp_dim p)%nat ->
  m_force p t I c q d = surface_force p I c pgrad q d.
Proof.
  intros p t I c pgrad q d HM HT Hd. unfold m_force, surface_force, weight_at. rewrite (capillary_general p t I c pgrad) by assumption.
  destruct (implicit_weights t HT) as [-> ->]. rewrite m_rho_density, <- c_field_share, share_gradient_scale. ring.
Qed.
(** both tables of the flow operator hold the values of the mixture whenever the fluids differ *)
Theorem C93_tables : forall p I c old q, kp_density_diff p <> 0 \/ kp_viscosity_diff p <> 0 ->
  m_table p I c old q = (density_at p I c q, kp_viscosity p + kp_viscosity_diff p * share p I c q).
Proof.
  intros p I c old q H. unfold m_table. destruct (variable_parameters p) eqn:E; [|apply variable_false in E; tauto].
  rewrite !phase_value_share. reflexivity.
Qed.
Theorem C93_tables_constant : forall p I c old q, kp_density_diff p = 0 -> kp_viscosity_diff p = 0 -> m_table p I c old q = old q.
Proof.
  intros p I c old q H1 H2. unfold m_table, variable_parameters, Rnz. rewrite H1, H2. destruct (Req_EM_T 0 0); [reflexivity|contradiction].
Qed.
(** without surface tension: the total force is the weight of the fluid (for a velocity field that is the unit vector d at all points) *)
Theorem C93_weight : forall p t I con cells before V N d,
  kp_tension p = 0 -> (d < kp_dim p)%nat ->
  fulfils con V -> (forall c a mw, In c cells -> (a < kc_nv c)%nat -> In mw (expand con (kc_vdof c a)) -> (fst mw < N)%nat) ->
  (forall c q e, In c cells -> (q < kc_nq c)%nat -> (e < kp_dim p)%nat -> velocity_value c V q e = if Nat.eqb e d then 1 else 0) ->
  sumn N (fun g => V g * m_user_rhs p t I con cells before g) =
  if Nat.eqb d (kp_dim p - 1) then - (kp_gravity p * suml cells (fun c => sumn (kc_nq c) (fun q => density_at p I c q * kc_JxW c q))) else 0.
Proof.
  intros p t I con cells before V N d Hs Hd F HN HV. rewrite C93_virtual_work by assumption.
  assert (E : forall c q, In c cells -> (q < kc_nq c)%nat -> sumn (kp_dim p) (fun e => m_force p t I c q e * velocity_value c V q e) = - weight_at p I c q d).
  { intros c q Hc Hq. rewrite (sumn_delta (kp_dim p) d); [|exact Hd|].
    - rewrite HV by assumption. rewrite Nat.eqb_refl. unfold m_force, capillary. cbv zeta. rewrite Hs, m_rho_density. unfold weight_at.
      rewrite (sumn_zero (kp_dim p)) by (intros; ring). destruct (kp_interpolate p); ring.
    - intros e He Hne. rewrite HV by assumption. rewrite (proj2 (Nat.eqb_neq _ _) Hne). ring. }
  unfold weight_at in E. destruct (Nat.eqb d (kp_dim p - 1)).
  - rewrite <- suml_scal, <- suml_opp. apply suml_ext. intros c Hc. rewrite <- sumn_scal, <- sumn_opp. apply sumn_ext. intros q Hq. rewrite E by assumption. ring.
  - apply suml_zero. intros c Hc. apply sumn_zero. intros q Hq. rewrite E by assumption. ring.
Qed.
(** well balanced: with constant curvature k and interpolation onto the pressure the virtual work of the capillary force is that of the
    gradient of the pressure  tension * k * share  *)
Theorem C93_well_balanced : forall p t I con cells before V N pgrad k,
  kp_interpolate p = true -> kp_gravity p = 0 -> implicit_clock t ->
  (forall c, In c cells -> mapped (kp_dim p) I c (pgrad c)) ->
  (forall c q, In c cells -> (q < kc_nq c)%nat -> field_value I c (kc_w c) q = k) ->
  fulfils con V -> (forall c a mw, In c cells -> (a < kc_nv c)%nat -> In mw (expand con (kc_vdof c a)) -> (fst mw < N)%nat) ->
  sumn N (fun g => V g * m_user_rhs p t I con cells before g) =
  suml cells (fun c => sumn (kc_nq c) (fun q => kc_JxW c q * sumn (kp_dim p) (fun d =>
    pressure_gradient_of I (pgrad c) (fun i => kp_tension p * k * at_pressure_node I (share_field p c) i) q d * velocity_value c V q d))).
Proof.
  intros p t I con cells before V N pgrad k Hi Hg HT HM Hk F HN. rewrite C93_virtual_work by assumption.
  apply suml_ext. intros c Hc. apply sumn_ext. intros q Hq. f_equal. apply sumn_ext. intros d Hd. f_equal.
  rewrite (C93_force p t I c (pgrad c)) by auto. unfold surface_force, weight_at, share_gradient. rewrite Hi, Hg, Hk by assumption.
  unfold pressure_gradient_of. rewrite <- sumn_scal. replace (if Nat.eqb d (kp_dim p - 1) then 0 * _ else 0) with 0 by (destruct (Nat.eqb d (kp_dim p - 1)); ring).
  rewrite Rminus_0_r. apply sumn_ext. intros; ring.
Qed.
(** the same force as the matrix-free solver (which always takes the Heaviside function), given the same cell data *)
Theorem C93_same_as_matrix_free : forall p t I c pgrad vshape q d,
  mapped (kp_dim p) I c pgrad -> implicit_clock t -> (d < kp_dim p)%nat -> kp_from_heaviside p = true ->
  m_force p t I c q d =
  okz_force (MkForce (kp_dim p) (kp_density p) (kp_density_diff p) (kp_viscosity p) (kp_viscosity_diff p) (kp_gravity p) (kp_tension p) (kp_interpolate p))
            (MkFCell (kc_nq c) (kc_JxW c) (kc_nv c) vshape (kc_vdof c) (k_nls I) (kc_lshape c) (kc_lgrad c) (k_np I) pgrad (k_shape I) (kc_H c) (kc_w c)) q d.
Proof.
  intros p t I c pgrad vshape q d HM HT Hd HH. rewrite (C93_force p t I c pgrad) by assumption.
  unfold surface_force, weight_at, okz_force, share_gradient, share_field, curvature_value, ls_gradient, Model_Force.pressure_gradient, projected_value, fe_value; cbn.
  rewrite HH. unfold pressure_gradient_of, at_pressure_node, field_value, field_gradient, actual_rho, use_variable_parameters, okz_density, okz_property, mixture, density_at, share, field_value, fe_value; cbn.
  rewrite HH. unfold Reqb. destruct (kp_interpolate p); (destruct (Nat.eqb d (kp_dim p - 1)); [|reflexivity]);
  (destruct (Req_EM_T (kp_density_diff p) 0) as [E|E]; [|reflexivity]); (destruct (Req_EM_T (kp_viscosity_diff p) 0) as [E2|E2]; [|reflexivity]); cbn; rewrite E; ring.
Qed.
(** theta schemes with interpolation, level set as indicator: weighted means of the new and the old curvature and gradient *)
Theorem C93_theta_partial : forall p t I c pgrad q d,
  mapped (kp_dim p) I c pgrad -> (d < kp_dim p)%nat -> kp_interpolate p = true -> kp_from_heaviside p = false ->
  1 / 100000000000000 < k_tau2 t -> (1 < k_step_no t)%nat ->
  m_force p t I c q d =
  kp_tension p * (k_tau1 t * field_value I c (kc_w c) q + k_tau2 t * field_value I c (kc_w_old c) q) *
  (k_tau1 t * share_gradient p I c pgrad (fun j => kc_phi c j / 2) q d + k_tau2 t * share_gradient p I c pgrad (fun j => kc_phi_old c j / 2) q d)
  - weight_at p I c q d.
Proof.
  intros p t I c pgrad q d HM Hd Hi HH H2 L.
  unfold m_force, weight_at. rewrite (capillary_general p t I c pgrad), m_rho_density by assumption.
  assert (U : use_old t = true). { unfold use_old. destruct (Rlt_dec _ _); [|contradiction]. apply Nat.ltb_lt. exact L. }
  unfold w_values_old. rewrite U, Hi. unfold c_field. rewrite HH. unfold tau1, tau2. rewrite (proj2 (Nat.ltb_lt _ _) L).
  change (mvalue I c (kc_w_old c) q) with (field_value I c (kc_w_old c) q).
  assert (E : forall u, share_gradient p I c pgrad (fun j => u j / 2) q d = 1 / 2 * share_gradient p I c pgrad u q d).
  { intros u. rewrite <- share_gradient_scale. f_equal. apply FunctionalExtensionality.functional_extensionality. intros j. lra. }
  rewrite !E. ring.
Qed.
(** theta schemes, interface at rest: with interpolation and the level set itself as indicator the force does not depend on the weights *)
Theorem C93_theta_at_rest_partial : forall p t I c pgrad q d,
  mapped (kp_dim p) I c pgrad -> (d < kp_dim p)%nat -> kp_interpolate p = true -> kp_from_heaviside p = false ->
  1 / 100000000000000 < k_tau2 t -> k_tau1 t + k_tau2 t = 1 ->
  (forall j, kc_phi_old c j = kc_phi c j) -> (forall j, kc_w_old c j = kc_w c j) ->
  m_force p t I c q d = surface_force p I c pgrad q d.
Proof.
  intros p t I c pgrad q d HM Hd Hi HH H2 Hs Ep Ew. destruct (Nat.ltb_spec 1 (k_step_no t)) as [L|L]; [|apply C93_force; auto; left; lia].
  unfold m_force, surface_force, weight_at. rewrite (capillary_general p t I c pgrad), m_rho_density by assumption.
  assert (U : use_old t = true). { unfold use_old. destruct (Rlt_dec _ _); [|contradiction]. apply Nat.ltb_lt. exact L. }
  unfold w_values_old. rewrite U, Hi. replace (kc_phi_old c) with (kc_phi c) by (apply FunctionalExtensionality.functional_extensionality; intros; symmetry; apply Ep).
  replace (kc_w_old c) with (kc_w c) by (apply FunctionalExtensionality.functional_extensionality; intros; symmetry; apply Ew).
  rewrite <- c_field_share, share_gradient_scale. unfold c_field. rewrite HH. fold (field_value I c (kc_w c) q).
  change (mvalue I c (kc_w c) q) with (field_value I c (kc_w c) q). unfold tau1, tau2. rewrite (proj2 (Nat.ltb_lt _ _) L).
  replace (k_tau2 t) with (1 - k_tau1 t) by lra. ring.
Qed.
(** Violated without interpolation: the old curvature is never read, and an interface at rest feels the tension multiplied by tau1
    (a half for Crank-Nicolson) *)
Theorem C93_violation_old_curvature : forall p t I c pgrad q d,
  mapped (kp_dim p) I c pgrad -> (d < kp_dim p)%nat -> kp_interpolate p = false -> kp_from_heaviside p = false ->
  1 / 100000000000000 < k_tau2 t -> k_tau1 t + k_tau2 t = 1 -> (1 < k_step_no t)%nat ->
  (forall j, kc_phi_old c j = kc_phi c j) -> (forall j, kc_w_old c j = kc_w c j) ->
  m_force p t I c q d + weight_at p I c q d = k_tau1 t * (surface_force p I c pgrad q d + weight_at p I c q d).
Proof.
  intros p t I c pgrad q d HM Hd Hi HH H2 Hs L Ep Ew.
  unfold m_force, surface_force, weight_at. rewrite (capillary_general p t I c pgrad), m_rho_density by assumption.
  assert (U : use_old t = true). { unfold use_old. destruct (Rlt_dec _ _); [|contradiction]. apply Nat.ltb_lt. exact L. }
  unfold w_values_old. rewrite U, Hi. replace (kc_phi_old c) with (kc_phi c) by (apply FunctionalExtensionality.functional_extensionality; intros; symmetry; apply Ep).
  rewrite <- c_field_share, share_gradient_scale. unfold c_field. rewrite HH. unfold tau1, tau2. rewrite (proj2 (Nat.ltb_lt _ _) L).
  replace (k_tau2 t) with (1 - k_tau1 t) by lra. ring.
Qed.
(** Violated with the Heaviside function as indicator: the old gradient is the one of the level set, and it is not halved *)
Theorem C93_violation_old_heaviside : forall p t I c pgrad q d,
  mapped (kp_dim p) I c pgrad -> (d < kp_dim p)%nat -> kp_interpolate p = true -> kp_from_heaviside p = true ->
  1 / 100000000000000 < k_tau2 t -> k_tau1 t + k_tau2 t = 1 -> (1 < k_step_no t)%nat ->
  (forall j, kc_phi_old c j = kc_phi c j) -> (forall j, kc_w_old c j = kc_w c j) ->
  m_force p t I c q d + weight_at p I c q d =
  kp_tension p * field_value I c (kc_w c) q *
  (k_tau1 t * share_gradient p I c pgrad (kc_H c) q d + k_tau2 t * share_gradient p I c pgrad (kc_phi c) q d).
Proof.
  intros p t I c pgrad q d HM Hd Hi HH H2 Hs L Ep Ew.
  unfold m_force, weight_at. rewrite (capillary_general p t I c pgrad), m_rho_density by assumption.
  assert (U : use_old t = true). { unfold use_old. destruct (Rlt_dec _ _); [|contradiction]. apply Nat.ltb_lt. exact L. }
  unfold w_values_old. rewrite U, Hi. replace (kc_phi_old c) with (kc_phi c) by (apply FunctionalExtensionality.functional_extensionality; intros; symmetry; apply Ep).
  replace (kc_w_old c) with (kc_w c) by (apply FunctionalExtensionality.functional_extensionality; intros; symmetry; apply Ew).
  unfold c_field. rewrite HH. unfold tau1, tau2. rewrite (proj2 (Nat.ltb_lt _ _) L).
  change (mvalue I c (kc_w c) q) with (field_value I c (kc_w c) q). replace (k_tau2 t) with (1 - k_tau1 t) by lra. ring.
Qed.
(** the table of gradients has as many rows as the level set has unknowns; all accesses are inside exactly if the pressure has not more *)
Theorem C93_table_in_range : forall I nq, (0 < nq)%nat ->
  ((forall i q, (i < k_np I)%nat -> (q < nq)%nat -> table_access I nq i q = Some (i, q)) <-> (k_np I <= k_nls I)%nat).
Proof.
  intros I nq Hq. unfold table_access. split.
  - intros H. destruct (Nat.leb_spec (k_np I) (k_nls I)) as [L|L]; [exact L|]. exfalso. specialize (H (k_nls I) 0%nat L Hq).
    rewrite Nat.ltb_irrefl in H. discriminate H.
  - intros H i q Hi Hq'. rewrite (proj2 (Nat.ltb_lt i (k_nls I))) by lia. rewrite (proj2 (Nat.ltb_lt _ _) Hq'). reflexivity.
Qed.
(** Violated: tensor-product elements in d dimensions with pressure degree r and s subdivisions of the level set, r > s *)
Theorem C93_violation_table : forall I nq d r s, (0 < nq)%nat -> (0 < d)%nat -> k_np I = Nat.pow (S r) d -> k_nls I = Nat.pow (S s) d -> (s < r)%nat ->
  exists i, (i < k_np I)%nat /\ table_access I nq i 0 = None.
Proof.
  intros I nq d r s Hq Hd Hp Hl H. exists (k_nls I). split.
  - rewrite Hp, Hl. apply Nat.pow_lt_mono_l; lia.
  - unfold table_access. rewrite Nat.ltb_irrefl. reflexivity.
Qed.
Print Assumptions C93_virtual_work.
Print Assumptions C93_force.
Print Assumptions C93_tables.
Print Assumptions C93_weight.
Print Assumptions C93_well_balanced.
Print Assumptions C93_same_as_matrix_free.
Print Assumptions C93_theta_at_rest_partial.
Print Assumptions C93_violation_old_curvature.
Print Assumptions C93_violation_old_heaviside.
Print Assumptions C93_table_in_range.
Print Assumptions C93_violation_table.

(** ** Witness: one dimension, one cell (-1, 1) of length two, linear level set and linear pressure, one point in the middle *)
Definition wI : interpolation := MkInterp 2 2 (fun i j => if Nat.eqb i j then 1 else 0) (fun _ _ _ => 2) (fun _ i _ => if Nat.eqb i 0 then -1/2 else 1/2).
Definition wcell : mforce_cell := MkMCell 1 (fun _ => 2) 2 (fun _ _ _ => 1/2) (fun a => a) (fun _ _ => 1/2) (fun _ j _ => if Nat.eqb j 0 then -1/2 else 1/2)
  (fun _ _ _ => 1/2) (fun j => if Nat.eqb j 0 then 0 else 1) (fun j => if Nat.eqb j 0 then -1 else 1) (fun _ => 3) (fun j => if Nat.eqb j 0 then -1 else 1) (fun _ => 3).
Lemma wmapped : mapped 1 wI wcell (k_pgrad0 wI).
Proof.
  exists (fun _ i _ => if Nat.eqb i 0 then -1 else 1), (fun _ _ _ => 1/2). split; [|split].
  - intros q i d Hd. cbn. destruct (Nat.eqb i 0); lra.
  - intros q i d Hd. cbn. destruct (Nat.eqb i 0); lra.
  - intros q a b Ha Hb. assert (a = 0%nat) by lia. assert (b = 0%nat) by lia. subst. cbn. lra.
Qed.
Definition wp (interpolate heaviside : bool) := MkMP 1 1 1 1 0 10 2 interpolate heaviside.
(** one time step: tension 2, curvature 3, gradient of the share 1/2; density 3/2 *)
Example C93_nonvacuous : forall i h, implicit_clock (MkMClock 5 1 0) /\ mapped (kp_dim (wp i h)) wI wcell (k_pgrad0 wI) /\
  m_force (wp i h) (MkMClock 5 1 0) wI wcell 0 0 = 2 * 3 * (1/2) - 10 * (3/2).
Proof.
  intros i h. assert (HT : implicit_clock (MkMClock 5 1 0)) by (right; cbn; auto). assert (M := wmapped). split; [exact HT|]. split; [exact M|].
  rewrite (C93_force _ _ _ _ (k_pgrad0 wI)); [|exact M|exact HT|cbn; lia]. destruct i, h; cbn; unfold surface_force, weight_at, density_at, share, share_gradient, field_value, field_gradient, pressure_gradient_of, at_pressure_node, share_field; cbn; lra.
Qed.
(** Crank-Nicolson, interface at rest: half of the tension without interpolation, one and a half of it with the Heaviside function *)
Example C93_violation_witness : let t := MkMClock 5 (1/2) (1/2) in
  m_force (wp false false) t wI wcell 0 0 = 2 * 3 * (1/4) - 10 * (3/2) /\ m_force (wp true true) t wI wcell 0 0 = 2 * 3 * (3/4) - 10 * (3/2) /\
  m_force (wp true false) t wI wcell 0 0 = 2 * 3 * (1/2) - 10 * (3/2).
Proof.
  intros t. assert (M := wmapped). assert (W : forall i h, weight_at (wp i h) wI wcell 0 0 = 10 * (3/2)).
  { intros [] []; cbn; unfold weight_at, density_at, share, field_value; cbn; lra. }
  split; [|split].
  - pose proof (C93_violation_old_curvature (wp false false) t wI wcell (k_pgrad0 wI) 0 0 M) as H. rewrite W in H.
    unfold surface_force in H. rewrite W in H. cbn in H. unfold field_value, share_gradient, field_gradient, share_field in H. cbn in H.
    assert (H' := H ltac:(lia) eq_refl eq_refl ltac:(lra) ltac:(lra) ltac:(lia) ltac:(reflexivity) ltac:(reflexivity)). lra.
  - pose proof (C93_violation_old_heaviside (wp true true) t wI wcell (k_pgrad0 wI) 0 0 M) as H. rewrite W in H.
    cbn in H. unfold field_value, share_gradient, pressure_gradient_of, at_pressure_node in H. cbn in H.
    assert (H' := H ltac:(lia) eq_refl eq_refl ltac:(lra) ltac:(lra) ltac:(lia) ltac:(reflexivity) ltac:(reflexivity)). lra.
  - pose proof (C93_theta_at_rest_partial (wp true false) t wI wcell (k_pgrad0 wI) 0 0 M) as H.
    unfold surface_force in H. rewrite W in H. cbn in H. unfold field_value, share_gradient, pressure_gradient_of, at_pressure_node, share_field in H. cbn in H.
    assert (H' := H ltac:(lia) eq_refl eq_refl ltac:(lra) ltac:(lra) ltac:(reflexivity) ltac:(reflexivity)). lra.
Qed.
