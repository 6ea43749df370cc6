(** * Profiles, normals and curvature: C68, C69, C70 *)
From Coq Require Import Reals List Bool Lra Lia Psatz.
From Verif Require Import SumR Model_Bubble Properties_Bubble Model_LevelSet Model_LevelSetOps Properties_LevelSetOps Model_PhaseField Properties_PhaseField Model_Curvature Properties_LevelSet2.
Import ListNotations.
Open Scope R_scope.

(** ** the hyperbolic tangent *)
Lemma cosh_pos x : 0 < cosh x.
Proof. unfold cosh. pose proof (exp_pos x). pose proof (exp_pos (- x)). lra. Qed.
Lemma cosh_sinh x : cosh x * cosh x - sinh x * sinh x = 1.
Proof.
  unfold cosh, sinh. assert (E : exp x * exp (- x) = 1) by (rewrite <- exp_plus, Rplus_opp_r; apply exp_0). nra.
Qed.
Lemma tanh_sech x : 1 - tanh x * tanh x = 1 / (cosh x * cosh x).
Proof. pose proof (cosh_pos x). pose proof (cosh_sinh x). unfold tanh. apply (Rmult_eq_reg_r (cosh x * cosh x)); [|nra]. field_simplify; [|lra|lra]. nra. Qed.
Lemma derivable_tanh x : derivable_pt_lim tanh x (1 - tanh x * tanh x).
Proof.
  replace (1 - tanh x * tanh x) with ((cosh x * cosh x - sinh x * sinh x) / (cosh x)²).
  - change tanh with (fun y => sinh y / cosh y). apply (derivable_pt_lim_div sinh cosh x (cosh x) (sinh x)); [apply derivable_pt_lim_sinh|apply derivable_pt_lim_cosh|pose proof (cosh_pos x); lra].
  - unfold tanh, Rsqr. pose proof (cosh_pos x). field. lra.
Qed.
Lemma tanh_range x : -1 < tanh x < 1.
Proof.
  pose proof (cosh_pos x). unfold tanh. pose proof (exp_pos x). pose proof (exp_pos (- x)). split.
  - apply (Rmult_lt_reg_r (cosh x)); [lra|]. replace (sinh x / cosh x * cosh x) with (sinh x) by (field; lra). unfold sinh, cosh. lra.
  - apply (Rmult_lt_reg_r (cosh x)); [lra|]. replace (sinh x / cosh x * cosh x) with (sinh x) by (field; lra). unfold sinh, cosh. lra.
Qed.
Lemma tanh_odd x : tanh (- x) = - tanh x.
Proof. unfold tanh, sinh, cosh. rewrite Ropp_involutive. pose proof (exp_pos x). pose proof (exp_pos (- x)). field. lra. Qed.
Lemma tanh_ln x : ln ((1 + tanh x) / (1 - tanh x)) = 2 * x.
Proof.
  assert (E : (1 + tanh x) / (1 - tanh x) = exp (2 * x)).
  { unfold tanh, sinh, cosh. pose proof (exp_pos x). pose proof (exp_pos (- x)). replace (exp (2 * x)) with (exp x / exp (- x)).
    - field. lra.
    - replace (2 * x) with (x - - x) by ring. unfold Rminus. rewrite exp_plus. rewrite (exp_Ropp (- x)). reflexivity. }
  rewrite E. apply ln_exp.
Qed.
Lemma derivable_scaled f x a l : a <> 0 -> derivable_pt_lim f (x / a) l -> derivable_pt_lim (fun d => f (d / a)) x (l / a).
Proof.
  intros Ha H. replace (l / a) with (l * (1 / a)) by (field; exact Ha).
  apply (derivable_pt_lim_comp (fun d => d / a) f x (1 / a) l); [|exact H].
  eapply derivable_pt_lim_ext with (f := mult_real_fct (1 / a) id); [intros; unfold mult_real_fct, id; field; exact Ha|].
  pose proof (derivable_pt_lim_scal id (1/a) x 1 (derivable_pt_lim_id x)) as P. rewrite Rmult_1_r in P. exact P.
Qed.

(** ** C68: the initial profiles are the equilibria of the solvers *)
Lemma derivable_profile eps a d : a * eps <> 0 ->
  derivable_pt_lim (fun d => - tanh (d / (a * eps))) d (- (1 - tanh (d / (a * eps)) * tanh (d / (a * eps))) / (a * eps)).
Proof.
  intros H. replace (- (1 - tanh (d / (a * eps)) * tanh (d / (a * eps))) / (a * eps)) with (- ((1 - tanh (d / (a * eps)) * tanh (d / (a * eps))) / (a * eps))) by (field; split; intro Z; apply H; rewrite Z; ring).
  apply (derivable_pt_lim_opp (fun d => tanh (d / (a * eps)))). apply (derivable_scaled tanh d (a * eps) (1 - tanh (d / (a * eps)) * tanh (d / (a * eps))) H). apply derivable_tanh.
Qed.
(** level set: slope of the profile *)
Theorem C68_level_set_slope : forall eps d, 0 < eps ->
  derivable_pt_lim (ls_transform eps) d (- (1 - ls_transform eps d * ls_transform eps d) / (2 * eps)).
Proof.
  intros eps d H. unfold ls_transform. replace (- tanh (d / (2 * eps)) * - tanh (d / (2 * eps))) with (tanh (d / (2 * eps)) * tanh (d / (2 * eps))) by ring.
  apply derivable_profile. lra.
Qed.
(** and reinitialization does not move it: at every point where the discrete function has the value and the gradient of
    the profile of a signed distance (unit gradient e), the flux of the pseudo time step vanishes in every component *)
Theorem C68_reinitialization_keeps_profile : forall s p eps deg U e dist,
  0 < eps -> l_diameter p / deg <= eps -> ldot s e e = 1 ->
  lvalue s p U = ls_transform eps dist ->
  (forall d, lgradient s p U d = - (1 - ls_transform eps dist * ls_transform eps dist) / (2 * eps) * e d) ->
  forall d, reinit_rhs_flux s eps deg false (fun _ d => - e d) U p d = 0.
Proof.
  intros s p eps deg U e dist He Hh Hn Hv Hg d. unfold reinit_rhs_flux, diffusion. rewrite Rmax_left by exact Hh. rewrite Hv.
  set (c := ls_transform eps dist) in *. rewrite (ldot_ext s _ (fun d => - 1 * e d) _ (fun d => - (1 - c * c) / (2 * eps) * e d)); [|intros; ring|intros; apply Hg].
  rewrite ldot_scal, ldot_comm, ldot_scal, Hn. field. lra.
Qed.
(** phase field: first and second derivative *)
Theorem C68_phase_field_equilibrium : forall par d, 0 < ch_eps par ->
  let c := pf_transform (ch_eps par) in
  exists c' c'', (forall x, derivable_pt_lim c x (c' x)) /\ (forall x, derivable_pt_lim c' x (c'' x)) /\
    factor_4 par * c'' d - factor_2 par * c d * (c d * c d - 1) = 0.
Proof.
  intros par d He. set (eps := ch_eps par) in *. set (c := pf_transform eps). cbv zeta.
  assert (D1 : forall x, derivable_pt_lim c x (- (1 - c x * c x) / eps)).
  { intros x. unfold c, pf_transform. pose proof (derivable_profile eps 1 x ltac:(lra)) as P. rewrite Rmult_1_l in P.
    replace (- tanh (x / eps) * - tanh (x / eps)) with (tanh (x / eps) * tanh (x / eps)) by ring. exact P. }
  exists (fun x => - (1 - c x * c x) / eps), (fun x => 2 * c x * (- (1 - c x * c x) / eps) / eps). split; [exact D1|]. split.
  - intros x. eapply derivable_pt_lim_ext with (f := fun x => (1 / eps) * (c x * c x - 1)); [intros; field; lra|].
    replace (2 * c x * (- (1 - c x * c x) / eps) / eps) with (1 / eps * ((- (1 - c x * c x) / eps * c x + c x * (- (1 - c x * c x) / eps)) - 0)) by (field; lra).
    apply (derivable_pt_lim_scal (fun x => c x * c x - 1) (1 / eps)). apply (derivable_pt_lim_minus (fun x => c x * c x) (fun _ => 1)); [|apply derivable_pt_lim_const].
    apply derivable_pt_lim_mult; apply D1.
  - unfold factor_4, factor_2. fold eps. field. lra.
Qed.
(** the gradient energy of the profile per unit interface area is exactly the surface tension coefficient: E is an
    antiderivative of factor_4 (c')^2 and E(x) - E(-x) tends to sigma *)
Lemma tanh_large x : 0 < x -> 1 - 1 / x <= tanh x.
Proof.
  intros Hx. unfold tanh, sinh, cosh. pose proof (exp_pos x) as P. pose proof (exp_pos (- x)) as N.
  assert (E : exp x * exp (- x) = 1) by (rewrite <- exp_plus, Rplus_opp_r; apply exp_0).
  assert (G : 1 + x < exp x) by (apply exp_ineq1; lra).
  apply (Rmult_le_reg_r ((exp x + exp (- x)) / 2)); [lra|]. replace ((exp x - exp (- x)) / 2 / ((exp x + exp (- x)) / 2) * ((exp x + exp (- x)) / 2)) with ((exp x - exp (- x)) / 2) by (field; lra).
  apply (Rmult_le_reg_r (2 * x * exp x)); [nra|]. replace ((1 - 1 / x) * ((exp x + exp (- x)) / 2) * (2 * x * exp x)) with ((x - 1) * (exp x * exp x + exp x * exp (- x))) by (field; lra).
  replace ((exp x - exp (- x)) / 2 * (2 * x * exp x)) with (x * (exp x * exp x - exp x * exp (- x))) by field. rewrite E. nra.
Qed.
Lemma inv_self z : 0 < z -> 1 / z * z = 1.
Proof. intros. field. lra. Qed.
Theorem C68_interface_energy : forall par, 0 < ch_eps par -> 0 < ch_sigma par ->
  let c := pf_transform (ch_eps par) in
  exists c' E, (forall x, derivable_pt_lim c x (c' x)) /\ (forall x, derivable_pt_lim E x (factor_4 par * (c' x * c' x))) /\
    (forall tol, 0 < tol -> exists X, forall x, X < x -> ch_sigma par - tol < E x - E (- x) <= ch_sigma par).
Proof.
  intros par He Hs. set (eps := ch_eps par) in *. set (sg := ch_sigma par) in *. set (c := pf_transform eps). cbv zeta.
  assert (D1 : forall x, derivable_pt_lim c x (- (1 - c x * c x) / eps)).
  { intros x. unfold c, pf_transform. pose proof (derivable_profile eps 1 x ltac:(lra)) as P. rewrite Rmult_1_l in P.
    replace (- tanh (x / eps) * - tanh (x / eps)) with (tanh (x / eps) * tanh (x / eps)) by ring. exact P. }
  exists (fun x => - (1 - c x * c x) / eps), (fun x => 75/100 * sg * (c x * c x * c x * (1/3) - c x)). split; [exact D1|]. split.
  - intros x. unfold factor_4. fold sg. fold eps.
    set (l := - (1 - c x * c x) / eps).
    replace (75 / 100 * sg * eps * (l * l)) with (75/100 * sg * ((((l * c x + c x * l) * c x + c x * c x * l) * (1/3) + c x * c x * c x * 0) - l)) by (unfold l; field; lra).
    apply (derivable_pt_lim_scal (fun x => c x * c x * c x * (1/3) - c x)). apply (derivable_pt_lim_minus (fun x => c x * c x * c x * (1/3)) c); [|apply D1].
    apply (derivable_pt_lim_mult (fun x => c x * c x * c x) (fun _ => 1/3)); [|apply derivable_pt_lim_const].
    apply (derivable_pt_lim_mult (fun x => c x * c x) c); [|apply D1]. apply derivable_pt_lim_mult; apply D1.
  - intros tol Ht. exists (eps * (1 + 2 * sg / tol)). intros x Hx.
    assert (Od : c (- x) = - c x) by (unfold c, pf_transform; replace (- x / eps) with (- (x / eps)) by (field; lra); rewrite tanh_odd; ring). rewrite Od.
    set (t := tanh (x / eps)). assert (Ec : c x = - t) by reflexivity. rewrite Ec.
    assert (Hq : 0 < 2 * sg / tol) by (apply Rdiv_lt_0_compat; lra).
    assert (Hxe : 1 + 2 * sg / tol < x / eps) by (apply (Rmult_lt_reg_l eps); [exact He|]; replace (eps * (x / eps)) with x by (field; lra); exact Hx).
    assert (T1 : t < 1) by (apply tanh_range). assert (T0 : 1 - 1 / (x / eps) <= t) by (apply tanh_large; lra).
    assert (T2 : 1 / (x / eps) < tol / (2 * sg)).
    { apply (Rmult_lt_reg_r (x / eps)); [lra|]. rewrite (inv_self (x / eps)) by lra.
      apply Rle_lt_trans with (tol / (2 * sg) * (2 * sg / tol)); [right; field; lra|]. apply Rmult_lt_compat_l; [apply Rdiv_lt_0_compat; lra|lra]. }
    assert (T3 : 0 < t).
    { assert (1 / (x / eps) <= 1); [|assert (t <> 0); [|lra]].
      - apply (Rmult_le_reg_r (x / eps)); [lra|]. rewrite (inv_self (x / eps)) by lra. lra.
      - assert (1 / (x / eps) < 1); [|lra]. apply (Rmult_lt_reg_r (x / eps)); [lra|]. rewrite (inv_self (x / eps)) by lra. lra. }
    assert (V : 75 / 100 * sg * (- t * - t * - t * (1 / 3) - - t) - 75 / 100 * sg * (- - t * - - t * - - t * (1 / 3) - - - t) = sg * (3/2 * t - t * t * t / 2)) by field.
    rewrite V. split.
    + (* sg*(1 - (3/2 t - t^3/2)) = sg (1-t)^2 (2+t)/2 <= sg (1-t) * 3/2 *)
      replace (sg * (3 / 2 * t - t * t * t / 2)) with (sg - sg * ((1 - t) * ((1 - t) * (2 + t)) / 2)) by field.
      assert (U1 : (1 - t) * (2 + t) <= 2) by nra. assert (U2 : 0 <= 1 - t) by lra.
      assert (U3 : (1 - t) * ((1 - t) * (2 + t)) / 2 <= 1 - t) by nra.
      assert (U4 : 1 - t < tol / (2 * sg)) by lra.
      assert (U5 : sg * (1 - t) < sg * (tol / (2 * sg))) by (apply Rmult_lt_compat_l; lra). replace (sg * (tol / (2 * sg))) with (tol / 2) in U5 by (field; lra).
      assert (U6 : sg * ((1 - t) * ((1 - t) * (2 + t)) / 2) <= sg * (1 - t)) by (apply Rmult_le_compat_l; lra). lra.
    + assert (3 / 2 * t - t * t * t / 2 <= 1) by (assert (0 <= (1 - t) * (1 - t) * (2 + t)) by (apply Rmult_le_pos; nra); nra). nra.
Qed.
(** the nodal distance recovered for the Heaviside function is the signed distance in units of the interface width *)
Theorem C68_distance_recovered : forall eps d, 0 < eps -> - (4 * eps) <= d <= 4 * eps -> node_distance (ls_transform eps d) = - d / eps.
Proof.
  intros eps d He Hd. assert (B : -2 <= d / (2 * eps) <= 2).
  { split; apply (Rmult_le_reg_r (2 * eps)); try lra; replace (d / (2 * eps) * (2 * eps)) with d by (field; lra); lra. }
  assert (Mono : forall x y, x <= y -> tanh x <= tanh y).
  { intros x y Hxy. assert (P : derivable tanh) by (intros z; exists (1 - tanh z * tanh z); apply derivable_tanh).
    apply (nonneg_derivative_1 tanh P); [|exact Hxy]. intros z. rewrite (derive_pt_eq_0 tanh z (1 - tanh z * tanh z) (P z) (derivable_tanh z)). pose proof (tanh_range z). nra. }
  rewrite node_distance_mid.
  - unfold ls_transform. replace ((1 + - tanh (d / (2 * eps))) / (1 - - tanh (d / (2 * eps)))) with ((1 + tanh (- (d / (2 * eps)))) / (1 - tanh (- (d / (2 * eps))))) by (rewrite tanh_odd; reflexivity).
    rewrite tanh_ln. field. lra.
  - unfold ls_transform, cutoff. pose proof (Mono _ _ (proj2 B)). pose proof (Mono _ _ (proj1 B)) as M. rewrite (tanh_odd 2) in M || (replace (-2) with (- (2)) in M by ring; rewrite (tanh_odd 2) in M). lra.
Qed.
Print Assumptions C68_level_set_slope.
Print Assumptions C68_reinitialization_keeps_profile.
Print Assumptions C68_phase_field_equilibrium.
Print Assumptions C68_interface_energy.
Print Assumptions C68_distance_recovered.
Definition prof_point : lpoint := MkLP 1 (fun _ => 1/2) (fun i _ => if Nat.eqb i 0 then -1 else 1) 1.
Example C68_nonvacuous : exists U, lvalue (ex_space (fun _ => false)) prof_point U = ls_transform 1 0 /\
  (forall d, lgradient (ex_space (fun _ => false)) prof_point U d = - (1 - ls_transform 1 0 * ls_transform 1 0) / (2 * 1) * (fun _ => 1) d) /\
  l_diameter prof_point / 1 <= 1 /\ ldot (ex_space (fun _ => false)) (fun _ => 1) (fun _ => 1) = 1.
Proof.
  assert (Z : ls_transform 1 0 = 0) by (unfold ls_transform, tanh, sinh, cosh; replace (0 / (2 * 1)) with 0 by field; rewrite Ropp_0, exp_0; field).
  exists (ex_vec (1/4) (-1/4)). rewrite Z. unfold lvalue, lgradient, ldot, ex_vec. cbn. repeat split; intros; lra.
Qed.

(** ** C69: normals and curvature *)
Lemma ldot_scal2 s t v : ldot s (fun d => t * v d) (fun d => t * v d) = t * t * ldot s v v.
Proof. rewrite ldot_scal. rewrite ldot_comm, ldot_scal. ring. Qed.
Lemma norm_sq s v : sqrt (ldot s v v) * sqrt (ldot s v v) = ldot s v v.
Proof. apply sqrt_sqrt, ldot_nonneg. Qed.
Theorem C69_unit_or_zero : forall s v,
  (1/100 < sqrt (ldot s v v) -> ldot s (normalize_nodal s v) (normalize_nodal s v) = 1 /\ exists a, 0 < a /\ forall d, normalize_nodal s v d = a * v d) /\
  (sqrt (ldot s v v) <= 1/100 -> forall d, normalize_nodal s v d = 0).
Proof.
  intros s v. pose proof (norm_sq s v) as Q. set (m := sqrt (ldot s v v)) in *. split; intros H.
  - assert (E : forall d, normalize_nodal s v d = 1 / m * v d) by (intros d; unfold normalize_nodal; fold m; rewrite Rltb_true by exact H; field; lra). split.
    + rewrite (ldot_ext s _ (fun d => 1 / m * v d) _ (fun d => 1 / m * v d)) by (intros; apply E). rewrite ldot_scal2, <- Q. field. lra.
    + exists (1 / m). split; [apply Rdiv_lt_0_compat; lra|exact E].
  - intros d. unfold normalize_nodal. fold m. rewrite Rltb_false by lra. reflexivity.
Qed.
Lemma norm_scal s t v : 0 <= t -> sqrt (ldot s (fun d => t * v d) (fun d => t * v d)) = t * sqrt (ldot s v v).
Proof. intros H. rewrite ldot_scal2. rewrite sqrt_mult; [|nra|apply ldot_nonneg]. rewrite sqrt_square by exact H. reflexivity. Qed.
(** the direction does not depend on the length, above the threshold *)
Theorem C69_direction_only : forall s t v d, 0 < t -> 1/100 < sqrt (ldot s v v) -> 1/100 < t * sqrt (ldot s v v) ->
  normalize_nodal s (fun d => t * v d) d = normalize_nodal s v d.
Proof.
  intros s t v d Ht H1 H2. unfold normalize_nodal. rewrite norm_scal by lra. rewrite !Rltb_true by assumption. field. split; lra.
Qed.
(** the normals of the reinitialization are never longer than one *)
Theorem C69_reinitialization_normal : forall s v,
  ldot s (evaluated_normal s v) (evaluated_normal s v) <= 1 /\ (1/10000 <= sqrt (ldot s v v) -> ldot s (evaluated_normal s v) (evaluated_normal s v) = 1).
Proof.
  intros s v. pose proof (norm_sq s v) as Q. pose proof (sqrt_pos (ldot s v v)) as P. set (m := sqrt (ldot s v v)) in *.
  assert (E : ldot s (evaluated_normal s v) (evaluated_normal s v) = m * m / (Rmax (1/10000) m * Rmax (1/10000) m)).
  { rewrite (ldot_ext s _ (fun d => 1 / Rmax (1/10000) m * v d) _ (fun d => 1 / Rmax (1/10000) m * v d)); [|intros; unfold evaluated_normal; fold m; pose proof (Rmax_l (1/10000) m); field; lra..].
    rewrite ldot_scal2, <- Q. pose proof (Rmax_l (1/10000) m). field. lra. }
  rewrite E. split.
  - pose proof (Rmax_l (1/10000) m). pose proof (Rmax_r (1/10000) m). set (M := Rmax (1/10000) m) in *. apply (Rmult_le_reg_r (M * M)); [nra|].
    replace (m * m / (M * M) * (M * M)) with (m * m) by (field; lra). nra.
  - intros H. rewrite Rmax_right by lra. field. lra.
Qed.
(** a flat interface: all normals point in one direction. Then the curvature is zero *)
Lemma rhs_of_constant s pts N e : partition_of_unity s pts -> (forall j d, (j < l_n s)%nat -> unit_field s N j d = e d) ->
  forall i, curvature_rhs s pts N i = 0.
Proof.
  intros [_ Hp] H i. unfold curvature_rhs, lintegrate. destruct (l_con s i); [reflexivity|]. unfold ltest. apply suml_zero. intros p Hin.
  replace (divergence s p (unit_field s N)) with 0; [unfold ldot; rewrite sumn_zero by (intros; ring); ring|]. symmetry.
  unfold divergence. apply sumn_zero. intros d Hd. unfold lgradient.
  rewrite (sumn_ext _ _ (fun j => e d * l_grad p j d)); [|intros j Hj; rewrite H by exact Hj; reflexivity]. rewrite sumn_scal, Hp by assumption. ring.
Qed.
Lemma zero_rhs_zero_curvature s pts mind deg dif k : good_space s pts -> (forall i, (i < l_n s)%nat -> curvature_vmult s pts mind deg k dif i = 0) ->
  forall i, (i < l_n s)%nat -> k i = 0.
Proof.
  intros Hg H. destruct (C43_curvature s pts mind deg dif Hg) as (_ & _ & D). apply D. unfold inner. rewrite sumn_zero; [lra|]. intros i Hi. rewrite H by exact Hi. ring.
Qed.
Theorem C69_flat_interface : forall s pts mind deg dif correction eps c N a e k,
  partition_of_unity s pts -> good_space s pts ->
  (forall j d, (j < l_n s)%nat -> N j d = a j * e d) -> (forall j, (j < l_n s)%nat -> 0 < a j /\ 1/100 < a j * sqrt (ldot s e e)) ->
  (forall i, (i < l_n s)%nat -> curvature_vmult s pts mind deg k dif i = curvature_rhs s pts N i) ->
  forall i, (i < l_n s)%nat -> corrected s correction eps c k i = 0.
Proof.
  intros s pts mind deg dif corr eps c N a e k Hp Hg HN Ha Hk i Hi.
  assert (Hu : forall j d, (j < l_n s)%nat -> unit_field s N j d = e d / sqrt (ldot s e e)).
  { intros j d Hj. destruct (Ha j Hj) as [A1 A2]. assert (0 < sqrt (ldot s e e)) by (pose proof (sqrt_pos (ldot s e e)); nra).
    unfold unit_field, normalize_nodal. rewrite (ldot_ext s (N j) (fun d => a j * e d) (N j) (fun d => a j * e d)) by (intros; apply HN; exact Hj).
    rewrite norm_scal by lra. rewrite Rltb_true by exact A2. rewrite HN by exact Hj. field. split; lra. }
  assert (Z : k i = 0).
  { apply (zero_rhs_zero_curvature s pts mind deg dif k Hg); [|exact Hi]. intros j Hj. rewrite Hk by exact Hj. apply (rhs_of_constant s pts N (fun d => e d / sqrt (ldot s e e)) Hp Hu). }
  unfold corrected, ldistribute, lmask. destruct (l_con s i); [reflexivity|]. destruct corr; [|exact Z]. unfold correct_curvature. rewrite Z, Rltb_false by lra. reflexivity.
Qed.
(** the total curvature is that of the normals *)
Theorem C69_total_curvature : forall s pts mind deg dif N k,
  partition_of_unity s pts -> unconstrained s ->
  (forall i, (i < l_n s)%nat -> curvature_vmult s pts mind deg k dif i = curvature_rhs s pts N i) ->
  integral s pts k = suml pts (fun p => l_JxW p * - divergence s p (unit_field s N)).
Proof.
  intros s pts mind deg dif N k Hp Hu Hk.
  assert (E1 : sumn (l_n s) (curvature_vmult s pts mind deg k dif) = integral s pts k).
  { unfold curvature_vmult, curvature_local. rewrite (sumn_ext _ _ (lintegrate s pts (fun p => if Nat.ltb (if dif then 1 else 0) 2 then lvalue s p (lmask s k) else 0)
       (fun p d => if Nat.eqb (Nat.modulo (if dif then 1 else 0) 2) 1 then lgradient s p (lmask s k) d * normal_damping 1 mind deg p else 0))).
    2: { intros i Hi. unfold set_constrained. rewrite (Hu i Hi). reflexivity. }
    rewrite total_integrate by assumption. unfold integral. apply suml_ext. intros p _. destruct dif; cbn [Nat.ltb Nat.leb]; (rewrite (lvalue_ext s p (lmask s k) k); [reflexivity|intros j Hj; unfold lmask; rewrite (Hu j Hj); reflexivity]). }
  rewrite <- E1, (sumn_ext _ _ (curvature_rhs s pts N)) by exact Hk. unfold curvature_rhs. rewrite total_integrate by assumption. reflexivity.
Qed.
(** the projected gradient (compute_normal) of a level set function with constant gradient is that gradient, at every node
    and in every component, whatever the damping: planar interfaces have exact normals on every mesh *)
Lemma normal_vmult_minus s pts scale mind deg u v i :
  normal_vmult s pts scale mind deg (fun j => u j - v j) i = normal_vmult s pts scale mind deg u i - normal_vmult s pts scale mind deg v i.
Proof.
  unfold normal_vmult, set_constrained, lintegrate. destruct (l_con s i) eqn:E; [ring|]. unfold ltest. rewrite <- suml_minus. apply suml_ext. intros p _.
  assert (V : lvalue s p (lmask s (fun j => u j - v j)) = lvalue s p (lmask s u) - lvalue s p (lmask s v)).
  { unfold lvalue. rewrite <- sumn_minus. apply sumn_ext. intros j _. unfold lmask. destruct (l_con s j); ring. }
  assert (G : forall d, lgradient s p (lmask s (fun j => u j - v j)) d = lgradient s p (lmask s u) d - lgradient s p (lmask s v) d).
  { intros d. unfold lgradient. rewrite <- sumn_minus. apply sumn_ext. intros j _. unfold lmask. destruct (l_con s j); ring. }
  rewrite V. unfold ldot.
  rewrite (sumn_ext (l_dim s) (fun d => lgradient s p (lmask s (fun j => u j - v j)) d * normal_damping scale mind deg p * l_grad p i d)
    (fun d => lgradient s p (lmask s u) d * normal_damping scale mind deg p * l_grad p i d - lgradient s p (lmask s v) d * normal_damping scale mind deg p * l_grad p i d))
    by (intros d _; rewrite G; ring).
  rewrite sumn_minus. ring.
Qed.
Theorem C69_planar_level_set : forall s pts scale mind deg U g N c,
  partition_of_unity s pts -> good_space s pts -> unconstrained s -> 0 <= scale ->
  (forall p d, In p pts -> (d < l_dim s)%nat -> lgradient s p U d = g d) -> (c < l_dim s)%nat ->
  (forall i, (i < l_n s)%nat -> normal_vmult s pts scale mind deg (fun j => N j c) i = normal_rhs s pts U c i) ->
  forall j, (j < l_n s)%nat -> N j c = g c.
Proof.
  intros s pts scale mind deg U g N c Hp Hg Hu Hs HU Hc HN j Hj.
  apply (C43_unique_solution (l_n s) (normal_vmult s pts scale mind deg) (proj2 (proj2 (C43_normal s pts scale mind deg Hg Hs)))
    (fun u v i => normal_vmult_minus s pts scale mind deg u v i) (fun j => N j c) (fun _ => g c)); [|exact Hj].
  intros i Hi. rewrite HN by exact Hi. unfold normal_rhs, normal_vmult, set_constrained, lintegrate. rewrite (Hu i Hi). unfold ltest. apply suml_ext. intros p Hin.
  destruct Hp as [P1 P2]. rewrite HU by assumption.
  assert (V : lvalue s p (lmask s (fun _ => g c)) = g c).
  { unfold lvalue. rewrite (sumn_ext _ _ (fun j => g c * l_shape p j)) by (intros k Hk; unfold lmask; rewrite (Hu k Hk); ring). rewrite sumn_scal, P1 by exact Hin. ring. }
  assert (G : forall d, (d < l_dim s)%nat -> lgradient s p (lmask s (fun _ => g c)) d = 0).
  { intros d Hd. unfold lgradient. rewrite (sumn_ext _ _ (fun j => g c * l_grad p j d)) by (intros k Hk; unfold lmask; rewrite (Hu k Hk); ring). rewrite sumn_scal, P2 by assumption. ring. }
  rewrite V. f_equal. f_equal. unfold ldot. apply sumn_ext. intros d Hd. rewrite G by exact Hd. ring.
Qed.
(** the integral of the projected normal is the integral of the gradient *)
Theorem C69_total_normal : forall s pts scale mind deg U N c,
  partition_of_unity s pts -> unconstrained s ->
  (forall i, (i < l_n s)%nat -> normal_vmult s pts scale mind deg (fun j => N j c) i = normal_rhs s pts U c i) ->
  integral s pts (fun j => N j c) = suml pts (fun p => l_JxW p * lgradient s p U c).
Proof.
  intros s pts scale mind deg U N c Hp Hu HN.
  assert (E1 : sumn (l_n s) (normal_vmult s pts scale mind deg (fun j => N j c)) = integral s pts (fun j => N j c)).
  { unfold normal_vmult. rewrite (sumn_ext _ _ (lintegrate s pts (fun p => lvalue s p (lmask s (fun j => N j c)))
       (fun p d => lgradient s p (lmask s (fun j => N j c)) d * normal_damping scale mind deg p))).
    2: { intros i Hi. unfold set_constrained. rewrite (Hu i Hi). reflexivity. }
    rewrite total_integrate by assumption. unfold integral. apply suml_ext. intros p _.
    rewrite (lvalue_ext s p (lmask s (fun j => N j c)) (fun j => N j c)); [reflexivity|intros j Hj; unfold lmask; rewrite (Hu j Hj); reflexivity]. }
  rewrite <- E1, (sumn_ext _ _ (normal_rhs s pts U c)) by exact HN. unfold normal_rhs. rewrite total_integrate by assumption. reflexivity.
Qed.
Print Assumptions C69_planar_level_set.
Print Assumptions C69_total_normal.
(** Violated: independence of the unit of length. The slope of the profile is at most 1/(2 eps) everywhere, so with an
    interface thickness of 50 length units or more all nodal gradients are below the absolute threshold and the curvature
    is zero whatever the shape of the interface *)
Theorem C69_slope_bound : forall eps d l, 0 < eps -> derivable_pt_lim (ls_transform eps) d l -> Rabs l <= 1 / (2 * eps).
Proof.
  intros eps d l He H. rewrite (uniqueness_limite _ _ _ _ H (C68_level_set_slope eps d He)).
  assert (T : -1 < ls_transform eps d < 1) by (unfold ls_transform; pose proof (tanh_range (d / (2 * eps))); lra).
  set (c := ls_transform eps d) in *. clearbody c.
  replace (- (1 - c * c) / (2 * eps)) with (- ((1 - c * c) / (2 * eps))) by (field; lra). rewrite Rabs_Ropp.
  rewrite Rabs_pos_eq; [|apply Rmult_le_pos; [nra|left; apply Rinv_0_lt_compat; lra]]. apply Rmult_le_compat_r; [left; apply Rinv_0_lt_compat; lra|nra].
Qed.
Theorem C69_violation_length_unit : forall s pts mind deg dif eps N k,
  good_space s pts -> 50 <= eps ->
  (forall j, (j < l_n s)%nat -> sqrt (ldot s (N j) (N j)) <= 1 / (2 * eps)) ->
  (forall i, (i < l_n s)%nat -> curvature_vmult s pts mind deg k dif i = curvature_rhs s pts N i) ->
  forall i, (i < l_n s)%nat -> k i = 0.
Proof.
  intros s pts mind deg dif eps N k Hg He HN Hk. apply (zero_rhs_zero_curvature s pts mind deg dif k Hg). intros i Hi. rewrite Hk by exact Hi.
  assert (B : 1 / (2 * eps) <= 1/100) by (apply (Rmult_le_reg_r (2 * eps)); [lra|]; replace (1 / (2 * eps) * (2 * eps)) with 1 by (field; lra); lra).
  unfold curvature_rhs, lintegrate. destruct (l_con s i); [reflexivity|]. unfold ltest. apply suml_zero. intros p _.
  replace (divergence s p (unit_field s N)) with 0; [unfold ldot; rewrite sumn_zero by (intros; ring); ring|]. symmetry.
  unfold divergence. apply sumn_zero. intros d _. unfold lgradient. apply sumn_zero. intros j Hj. unfold unit_field.
  rewrite (proj2 (C69_unit_or_zero s (N j)) ltac:(specialize (HN j Hj); lra)). ring.
Qed.
Print Assumptions C69_unit_or_zero.
Print Assumptions C69_direction_only.
Print Assumptions C69_reinitialization_normal.
Print Assumptions C69_flat_interface.
Print Assumptions C69_total_curvature.
Print Assumptions C69_violation_length_unit.
(** rhs of a bent interface is not zero, and a flat one meets the hypotheses *)
Example C69_nonvacuous_flat : let s := ex_space (fun _ => false) in
  partition_of_unity s ex_points /\ good_space s ex_points /\ (forall j, (j < l_n s)%nat -> 0 < INR (S j) /\ 1/100 < INR (S j) * sqrt (ldot s (fun _ => 1) (fun _ => 1))) /\
  curvature_rhs s ex_points (fun j _ => if Nat.eqb j 0 then 1 else -1) 0%nat = 1.
Proof.
  cbv zeta. assert (L : ldot (ex_space (fun _ => false)) (fun _ => 1) (fun _ => 1) = 1) by (unfold ldot; cbn; ring). split; [|split; [|split]].
  - split; intros p; [intros [<-|[<-|[]]]|intros d [<-|[<-|[]]] Hd]; cbn; lra.
  - split; [|split].
    + intros p [<-|[<-|[]]]; cbn; lra.
    + intros i _ _. cbn. lra.
    + intros U H i Hi. pose proof (H (ex_point 0) (or_introl eq_refl)) as H0. pose proof (H (ex_point 1) (or_intror (or_introl eq_refl))) as H1.
      unfold lvalue in H0, H1. cbn in H0, H1, Hi. destruct i as [|[|i]]; [lra|lra|lia].
  - intros [|[|j]] Hj; cbn in Hj; try lia; rewrite L, sqrt_1; cbn; lra.
  - unfold curvature_rhs, lintegrate, ltest, divergence, lgradient, unit_field, normalize_nodal, ldot. cbn.
    replace (0 + 1 * 1) with 1 by ring. replace (0 + -1 * -1) with 1 by ring. rewrite sqrt_1, Rltb_true by lra. field.
Qed.

(** the linear level set on one element meets the hypotheses of C69_planar_level_set (the others are in C69_nonvacuous_flat) *)
Example C69_nonvacuous_planar : let s := ex_space (fun _ => false) in let U := fun j => 3 * INR j in
  unconstrained s /\ (forall p d, In p ex_points -> (d < l_dim s)%nat -> lgradient s p U d = 3) /\
  (forall i, (i < l_n s)%nat -> normal_vmult s ex_points 4 1 1 (fun _ => 3) i = normal_rhs s ex_points U 0 i).
Proof.
  cbv zeta. split; [intros i _; reflexivity|split].
  - intros p d [<-|[<-|[]]] Hd; unfold lgradient; cbn; lra.
  - intros [|[|i]] Hi; cbn in Hi; try lia; unfold normal_vmult, normal_rhs, set_constrained, lintegrate, ltest, lvalue, lgradient, lmask, ldot; cbn; ring.
Qed.

(** ** C70: curvature correction *)
Theorem C70_sphere : forall dim eps R0 x, (2 <= dim)%nat -> 0 < eps -> 0 < R0 -> x < R0 ->
  let c := tanh (x / (2 * eps)) in
  let k := (INR dim - 1) / (R0 - x) in
  1/10000 < k -> 1/100 < 1 - c * c ->
  correct_curvature dim eps c k = (INR dim - 1) / R0.
Proof.
  intros dim eps R0 x Hd He HR Hx. cbv zeta. intros Hk Hc. assert (D : 1 <= INR dim - 1) by (apply le_INR in Hd; cbn in Hd; lra).
  unfold correct_curvature. rewrite Rltb_true by exact Hk. rewrite Rltb_true by exact Hc. rewrite tanh_ln. field. repeat split; try lra.
Qed.
(** far from the interface nothing is corrected: the curvature keeps the value of the local radius *)
Theorem C70_far : forall dim eps c k, (2 <= dim)%nat -> 0 < k -> 1 - c * c <= 1/100 -> correct_curvature dim eps c k = k.
Proof.
  intros dim eps c k Hd Hk Hc. unfold correct_curvature. destruct (Rlt_dec (1/10000) k); [rewrite Rltb_true by assumption|rewrite Rltb_false by lra; reflexivity].
  rewrite Rltb_false by lra. assert (D : 1 <= INR dim - 1) by (apply le_INR in Hd; cbn in Hd; lra). field. repeat split; lra.
Qed.
(** Violated: the exchange of the two fluids. A sphere of the other fluid has the level set -c and the curvature -k; it is
    left uncorrected, so the result is wrong at every node off the interface *)
Theorem C70_violation_orientation : forall dim eps R0 x, (2 <= dim)%nat -> 0 < eps -> 0 < R0 -> x < R0 -> x <> 0 ->
  let c := tanh (x / (2 * eps)) in
  let k := (INR dim - 1) / (R0 - x) in
  1/10000 < k -> 1/100 < 1 - c * c ->
  correct_curvature dim eps (- c) (- k) = - k /\ correct_curvature dim eps (- c) (- k) <> - correct_curvature dim eps c k.
Proof.
  intros dim eps R0 x Hd He HR Hx Hne. cbv zeta. intros Hk Hc. rewrite (C70_sphere dim eps R0 x Hd He HR Hx Hk Hc).
  assert (D : 1 <= INR dim - 1) by (apply le_INR in Hd; cbn in Hd; lra).
  assert (E : forall c k, 0 < k -> correct_curvature dim eps (- c) (- k) = - k) by (intros; unfold correct_curvature; rewrite Rltb_false by lra; reflexivity).
  rewrite E by lra. split; [reflexivity|]. intros H. apply Ropp_eq_compat in H. rewrite !Ropp_involutive in H. apply Hne.
  assert (H2 : (INR dim - 1) / (R0 - x) * ((R0 - x) * R0) = (INR dim - 1) / R0 * ((R0 - x) * R0)) by (rewrite H; reflexivity).
  replace ((INR dim - 1) / (R0 - x) * ((R0 - x) * R0)) with ((INR dim - 1) * R0) in H2 by (field; lra).
  replace ((INR dim - 1) / R0 * ((R0 - x) * R0)) with ((INR dim - 1) * (R0 - x)) in H2 by (field; lra).
  assert ((INR dim - 1) * x = 0) by lra. apply Rmult_integral in H0. destruct H0; lra.
Qed.
(** Violated: sign. Outside of the sphere an overestimated curvature changes its sign *)
Theorem C70_violation_sign : forall dim eps x k, (2 <= dim)%nat -> 0 < eps -> x < 0 ->
  let c := tanh (x / (2 * eps)) in
  1/10000 < k -> 1/100 < 1 - c * c -> (INR dim - 1) / (- x) < k -> correct_curvature dim eps c k < 0.
Proof.
  intros dim eps x k Hd He Hx. cbv zeta. intros Hk Hc Hbig. assert (D : 1 <= INR dim - 1) by (apply le_INR in Hd; cbn in Hd; lra).
  unfold correct_curvature. rewrite Rltb_true by exact Hk. rewrite Rltb_true by exact Hc. rewrite tanh_ln.
  assert (L : 1 / k + eps * (2 * (x / (2 * eps))) / (INR dim - 1) < 0).
  { replace (eps * (2 * (x / (2 * eps))) / (INR dim - 1)) with (- (1 / ((INR dim - 1) / (- x)))) by (field; lra).
    assert (0 < (INR dim - 1) / - x) by (apply Rdiv_lt_0_compat; lra). assert (1 / k < 1 / ((INR dim - 1) / - x)); [|lra].
    unfold Rdiv at 1 2. rewrite !Rmult_1_l. apply Rinv_lt_contravar; [nra|exact Hbig]. }
  unfold Rdiv at 1. rewrite Rmult_1_l. apply Rinv_lt_0_compat. exact L.
Qed.
Lemma sech_half : 1/100 < 1 - tanh (1 / (2 * 1)) * tanh (1 / (2 * 1)).
Proof.
  rewrite tanh_sech. assert (U : cosh (1 / (2 * 1)) <= 2).
  { unfold cosh. assert (E : exp (1 / (2 * 1)) <= 3). { apply Rle_trans with (exp 1); [left; apply exp_increasing; lra|apply exp_le_3]. }
    assert (exp (- (1 / (2 * 1))) <= 1) by (apply Rle_trans with (exp 0); [left; apply exp_increasing; lra|rewrite exp_0; lra]). lra. }
  pose proof (cosh_pos (1 / (2 * 1))). apply (Rmult_lt_reg_r (cosh (1 / (2 * 1)) * cosh (1 / (2 * 1)))); [nra|]. rewrite inv_self by nra. nra.
Qed.
Example C70_nonvacuous : correct_curvature 3 1 (tanh (1 / (2 * 1))) ((INR 3 - 1) / (4 - 1)) = 1/2.
Proof. rewrite C70_sphere; try lra; try lia; [cbn; lra|cbn; lra|apply sech_half]. Qed.
Print Assumptions C70_sphere.
Print Assumptions C70_violation_orientation.
Print Assumptions C70_violation_sign.
