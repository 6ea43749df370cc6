(** * C110: kinetic energy of an enclosed flow *)
From Coq Require Import String Reals List Bool Arith ZArith Lra Lia.
From Coq Require Import FunctionalExtensionality.
From Verif Require Import Num SumR Model_Parameters Model_TimeStepping Spec_TimeStepping Proofs_TimeStepping Proofs_TimeStepping2.
From Verif Require Import Model_NonlinearSolver Properties_NonlinearSolver Model_NSOperator Model_BoundaryValues Properties_BoundaryValues Model_Run Properties_Run.
Import ListNotations.
Open Scope R_scope.

(** ** Specification *)
Section Spec.
Context {point : Type}.
Variable pb : problem point.
(** |u|^2 at a point *)
Definition speed2 (u : nat -> R) : R := sumn (pb_dim pb) (fun d => u d ^ 2).
(** integral of rho/2 |u|^2 *)
Definition energy_of (u : site -> nat -> R) : R := / 2 * suml (pb_sites pb) (fun s => st_JxW s * (st_rho s * speed2 (u s))).
Definition kinetic_energy (u : vec) : R := energy_of (velocity_at pb u).
(** viscosity, grad-div stabilization, damping *)
Definition dissipation (u : vec) : R :=
  suml (pb_sites pb) (fun s => st_JxW s *
    (2 * st_mu s * sumn (pb_dim pb) (fun d => sumn (pb_dim pb) (fun e => sym (gradient_at pb u s) d e ^ 2))
     + fp_tau_grad_div (pb_fp pb) * divergence_at pb u s ^ 2 - st_damping s * speed2 (velocity_at pb u s))).
(** size of the unknowns *)
Definition size (x : field) : R := sqrt (sumn (pb_nu pb) (fun i => fst x i ^ 2) + sumn (pb_np pb) (fun i => snd x i ^ 2)).
(** zero on the walls *)
Definition at_rest_on_walls (u : vec) : Prop := forall i, (i < pb_nu pb)%nat -> dirichlet_dof pb i = true -> u i = 0.
(** A container: one fluid of density [r], no-slip walls all around and no other boundary, no external load. The integration formula
    fulfils the divergence theorem for |u|^2 a (exact integration of the convective term) and for constant pressures. *)
Record container (r : R) : Prop := {
  ct_density : 0 <= r /\ forall s, In s (pb_sites pb) -> st_rho s = r;
  ct_signs : 0 <= fp_tau_grad_div (pb_fp pb) /\ forall s, In s (pb_sites pb) -> 0 <= st_JxW s /\ 0 <= st_mu s /\ st_damping s <= 0;
  ct_walls : forall time i, (i < pb_nu pb)%nat -> dirichlet_dof pb i = true -> prescribed (pb_conditions pb) time (pb_faces pb) i 0;
  ct_closed : forall f, In f (pb_ofaces pb) -> pb_open pb (of_id f) = None;
  ct_pressure : forall i, pb_con_p pb i = false;
  ct_divergence : forall a u, at_rest_on_walls a -> at_rest_on_walls u ->
    suml (pb_sites pb) (fun s => st_JxW s *
      (sumn (pb_dim pb) (fun e => velocity_at pb a s e * (2 * sumn (pb_dim pb) (fun d => velocity_at pb u s d * gradient_at pb u s d e)))
       + divergence_at pb a s * speed2 (velocity_at pb u s))) = 0;
  ct_constants : forall m i, pb_m0 pb = Some m \/ pb_m1 pb = Some m -> dirichlet_dof pb i = false ->
    suml (pb_sites pb) (fun s => st_JxW s * (pressure_at pb (mode_vector m) s * test_divergence pb s i)) = 0;
  ct_modes : forall m m' i, pb_m0 pb = Some m -> pb_m1 pb = Some m' -> (i < pb_np pb)%nat -> mode_vector m i * mode_vector m' i = 0 }.
End Spec.

(** ** Cauchy-Schwarz and projections *)
Lemma quadratic_cs A B C : 0 <= B -> (B = 0 -> C = 0) -> (forall l, 0 <= A - 2 * l * C + l * l * B) -> C <= sqrt A * sqrt B.
Proof.
  intros HB H0 H. assert (HA : 0 <= A) by (specialize (H 0); lra). rewrite <- sqrt_mult_alt by exact HA.
  apply Rle_trans with (Rabs C); [apply Rle_abs|]. rewrite <- sqrt_Rsqr_abs. apply sqrt_le_1_alt. unfold Rsqr.
  destruct (Req_dec B 0) as [E|E].
  - rewrite (H0 E), E. lra.
  - specialize (H (C / B)). assert (P : 0 < B) by lra. apply Rmult_le_compat_r with (r := B) in H; [|lra].
    replace ((A - 2 * (C / B) * C + C / B * (C / B) * B) * B) with (A * B - C * C) in H by (field; lra). lra.
Qed.
Lemma two_block_cs n k (f U e P : nat -> R) :
  sumn n (fun i => f i * U i) + sumn k (fun i => e i * P i) <=
  sqrt (sumn n (fun i => f i ^ 2) + sumn k (fun i => e i ^ 2)) * sqrt (sumn n (fun i => U i ^ 2) + sumn k (fun i => P i ^ 2)).
Proof.
  apply quadratic_cs.
  - apply Rplus_le_le_0_compat; apply sumn_nonneg; intros; apply pow2_ge_0.
  - intros Z.
    assert (Z1 : 0 <= sumn n (fun i => U i ^ 2)) by (apply sumn_nonneg; intros; apply pow2_ge_0).
    assert (Z2 : 0 <= sumn k (fun i => P i ^ 2)) by (apply sumn_nonneg; intros; apply pow2_ge_0).
    rewrite 2 sumn_zero; [ring| |]; intros i Hi.
    + assert (K := sumn_nonneg_zero k (fun i => P i ^ 2) (fun i _ => pow2_ge_0 (P i)) ltac:(lra) i Hi). cbn beta in K.
      assert (P i = 0) as ->; [|ring]. destruct (Req_dec (P i) 0) as [|N]; [assumption|]. exfalso. apply (pow_nonzero (P i) 2 N). exact K.
    + assert (K := sumn_nonneg_zero n (fun i => U i ^ 2) (fun i _ => pow2_ge_0 (U i)) ltac:(lra) i Hi). cbn beta in K.
      assert (U i = 0) as ->; [|ring]. destruct (Req_dec (U i) 0) as [|N]; [assumption|]. exfalso. apply (pow_nonzero (U i) 2 N). exact K.
  - intros l.
    assert (E1 : forall m (a b : nat -> R), sumn m (fun i => (a i - l * b i) ^ 2) = sumn m (fun i => a i ^ 2) - 2 * l * sumn m (fun i => a i * b i) + l * l * sumn m (fun i => b i ^ 2)).
    { intros m a b. rewrite <- !sumn_scal, <- sumn_minus, <- sumn_plus. apply sumn_ext. intros. ring. }
    assert (0 <= sumn n (fun i => (f i - l * U i) ^ 2)) by (apply sumn_nonneg; intros; apply pow2_ge_0).
    assert (0 <= sumn k (fun i => (e i - l * P i) ^ 2)) by (apply sumn_nonneg; intros; apply pow2_ge_0).
    rewrite E1 in *. lra.
Qed.
Lemma orthogonal_part n (m P : nat -> R) : exists c,
  sumn n (fun i => (P i - c * m i) * m i) = 0 /\ sumn n (fun i => (P i - c * m i) ^ 2) <= sumn n (fun i => P i ^ 2).
Proof.
  assert (E0 : forall c, sumn n (fun i => (P i - c * m i) * m i) = sumn n (fun i => P i * m i) - c * sumn n (fun i => m i ^ 2)).
  { intros c. rewrite <- sumn_scal, <- sumn_minus. apply sumn_ext. intros; ring. }
  assert (E1 : forall c, sumn n (fun i => (P i - c * m i) ^ 2) = sumn n (fun i => P i ^ 2) - 2 * c * sumn n (fun i => P i * m i) + c * c * sumn n (fun i => m i ^ 2)).
  { intros c. rewrite <- !sumn_scal, <- sumn_minus, <- sumn_plus. apply sumn_ext. intros; ring. }
  destruct (Req_dec (sumn n (fun i => m i ^ 2)) 0) as [Z|Z].
  - exists 0. rewrite E0, E1. assert (sumn n (fun i => P i * m i) = 0) as ->; [|lra].
    apply sumn_zero. intros i Hi. assert (K := sumn_nonneg_zero n (fun i => m i ^ 2) (fun i _ => pow2_ge_0 (m i)) Z i Hi). cbn beta in K.
    assert (m i = 0) as ->; [|ring]. destruct (Req_dec (m i) 0) as [|N]; [assumption|]. exfalso. apply (pow_nonzero (m i) 2 N). exact K.
  - exists (sumn n (fun i => P i * m i) / sumn n (fun i => m i ^ 2)). rewrite E0, E1.
    assert (0 <= sumn n (fun i => m i ^ 2)) by (apply sumn_nonneg; intros; apply pow2_ge_0).
    set (A := sumn n (fun i => P i * m i)) in *. set (B := sumn n (fun i => m i ^ 2)) in *. clearbody A B. split; [field; exact Z|].
    replace (2 * (A / B) * A) with (2 * (A * A / B)) by (field; exact Z). replace (A / B * (A / B) * B) with (A * A / B) by (field; exact Z).
    assert (0 <= A * A / B); [|lra]. apply Rmult_le_pos; [apply Rle_0_sqr|]. left. apply Rinv_0_lt_compat. lra.
Qed.

(** ** The work done in one step *)
Section Work.
Context {point : Type}.
Variable pb : problem point.
Variable r : R.
Hypothesis CT : container pb r.
Notation nothing := (fun _ : nat => 0).

Lemma no_load time i : external_load pb time i = 0.
Proof. unfold external_load. apply suml_zero. intros f Hf. rewrite (ct_closed _ _ CT f Hf). reflexivity. Qed.
Lemma tested_momentum time dudt conv (x : field) (V : vec) :
  sumn (pb_nu pb) (fun i => momentum_defect pb time dudt conv nothing x i * V i) =
  - suml (pb_sites pb) (fun s => st_JxW s *
    (sumn (pb_dim pb) (fun d => (st_rho s * (dudt s d + conv s d) - st_damping s * velocity_at pb (fst x) s d) * velocity_at pb V s d)
     + 2 * st_mu s * sumn (pb_dim pb) (fun d => sumn (pb_dim pb) (fun e => sym (gradient_at pb (fst x) s) d e * sym (gradient_at pb V s) d e))
     + (fp_tau_grad_div (pb_fp pb) * divergence_at pb (fst x) s - pressure_at pb (snd x) s) * divergence_at pb V s)).
Proof.
  unfold momentum_defect. rewrite (sumn_ext _ _ (fun i => - suml (pb_sites pb) (fun s => V i * (st_JxW s *
    (sumn (pb_dim pb) (fun d => (st_rho s * (dudt s d + conv s d) - st_damping s * velocity_at pb (fst x) s d) * st_phi s i d)
     + 2 * st_mu s * sumn (pb_dim pb) (fun d => sumn (pb_dim pb) (fun e => sym (gradient_at pb (fst x) s) d e * sym (st_dphi s i) d e))
     + (fp_tau_grad_div (pb_fp pb) * divergence_at pb (fst x) s - pressure_at pb (snd x) s) * test_divergence pb s i))))).
  2: { intros i _. rewrite no_load, suml_scal. ring. }
  rewrite sumn_opp, <- suml_sumn. f_equal. apply suml_ext. intros s _.
  rewrite (sumn_ext _ _ (fun i => st_JxW s *
    (sumn (pb_dim pb) (fun d => (st_rho s * (dudt s d + conv s d) - st_damping s * velocity_at pb (fst x) s d) * (V i * st_phi s i d))
     + 2 * st_mu s * sumn (pb_dim pb) (fun d => sumn (pb_dim pb) (fun e => sym (gradient_at pb (fst x) s) d e * (V i * sym (st_dphi s i) d e)))
     + (fp_tau_grad_div (pb_fp pb) * divergence_at pb (fst x) s - pressure_at pb (snd x) s) * (V i * test_divergence pb s i)))).
  2: { intros i _. rewrite <- (sumn_scal _ (V i) (fun d => (st_rho s * _ - _) * _)) || idtac.
       assert (A : sumn (pb_dim pb) (fun d => (st_rho s * (dudt s d + conv s d) - st_damping s * velocity_at pb (fst x) s d) * (V i * st_phi s i d))
                   = V i * sumn (pb_dim pb) (fun d => (st_rho s * (dudt s d + conv s d) - st_damping s * velocity_at pb (fst x) s d) * st_phi s i d)).
       { rewrite <- sumn_scal. apply sumn_ext. intros. ring. }
       assert (B : sumn (pb_dim pb) (fun d => sumn (pb_dim pb) (fun e => sym (gradient_at pb (fst x) s) d e * (V i * sym (st_dphi s i) d e)))
                   = V i * sumn (pb_dim pb) (fun d => sumn (pb_dim pb) (fun e => sym (gradient_at pb (fst x) s) d e * sym (st_dphi s i) d e))).
       { rewrite <- sumn_scal. apply sumn_ext. intros d _. rewrite <- sumn_scal. apply sumn_ext. intros. ring. }
       rewrite A, B. ring. }
  rewrite sumn_scal, !sumn_plus, !sumn_scal. f_equal. f_equal; [f_equal|].
  - rewrite sumn_swap. apply sumn_ext. intros d _. rewrite sumn_scal. reflexivity.
  - f_equal. rewrite sumn_swap. apply sumn_ext. intros d _. rewrite sumn_swap. apply sumn_ext. intros e _. rewrite sumn_scal. f_equal.
    unfold sym, gradient_at. rewrite <- sumn_plus. unfold Rdiv. rewrite <- sumn_scal_r. apply sumn_ext. intros. ring.
  - f_equal. unfold test_divergence, divergence_at, gradient_at. rewrite (sumn_ext _ _ (fun i => sumn (pb_dim pb) (fun d => V i * st_dphi s i d d))) by (intros; rewrite sumn_scal; reflexivity).
    apply sumn_swap.
Qed.
Lemma tested_continuity (x : field) (Q : vec) :
  sumn (pb_np pb) (fun i => continuity_defect pb nothing x i * Q i) = suml (pb_sites pb) (fun s => st_JxW s * (divergence_at pb (fst x) s * pressure_at pb Q s)).
Proof.
  unfold continuity_defect. rewrite (sumn_ext _ _ (fun i => suml (pb_sites pb) (fun s => st_JxW s * divergence_at pb (fst x) s * (Q i * st_psi s i)))).
  2: { intros i _. rewrite (ct_pressure _ _ CT). rewrite Rplus_0_l, <- Rmult_comm, <- suml_scal. apply suml_ext. intros. ring. }
  rewrite <- suml_sumn. apply suml_ext. intros s _. rewrite sumn_scal. unfold pressure_at. ring.
Qed.
Lemma constants m (u : vec) : pb_m0 pb = Some m \/ pb_m1 pb = Some m -> at_rest_on_walls pb u ->
  suml (pb_sites pb) (fun s => st_JxW s * (divergence_at pb u s * pressure_at pb (mode_vector m) s)) = 0.
Proof.
  intros Hm Hu. rewrite (suml_ext _ _ (fun s => sumn (pb_nu pb) (fun i => u i * (st_JxW s * (pressure_at pb (mode_vector m) s * test_divergence pb s i))))).
  - rewrite suml_sumn. apply sumn_zero. intros i Hi. rewrite suml_scal. destruct (dirichlet_dof pb i) eqn:D; [rewrite (Hu i Hi D); ring|].
    rewrite (ct_constants _ _ CT m i Hm D). ring.
  - intros s _. rewrite (sumn_ext _ _ (fun i => st_JxW s * pressure_at pb (mode_vector m) s * (u i * test_divergence pb s i))) by (intros; ring). rewrite sumn_scal.
    assert (E : sumn (pb_nu pb) (fun i => u i * test_divergence pb s i) = divergence_at pb u s); [|rewrite E; ring].
    unfold test_divergence, divergence_at, gradient_at. rewrite (sumn_ext _ _ (fun i => sumn (pb_dim pb) (fun d => u i * st_dphi s i d d))) by (intros; rewrite sumn_scal; reflexivity).
    apply sumn_swap.
Qed.
(** the convective term in skew-symmetric form does no work *)
Lemma convection_is_idle (a u : vec) : fp_beta (pb_fp pb) = / 2 -> at_rest_on_walls pb a -> at_rest_on_walls pb u ->
  suml (pb_sites pb) (fun s => st_JxW s * (st_rho s * sumn (pb_dim pb) (fun d => transport pb a u s d * velocity_at pb u s d))) = 0.
Proof.
  intros B Ha Hu. destruct (ct_density _ _ CT) as [_ D].
  rewrite (suml_ext _ _ (fun s => r / 2 * (st_JxW s *
      (sumn (pb_dim pb) (fun e => velocity_at pb a s e * (2 * sumn (pb_dim pb) (fun d => velocity_at pb u s d * gradient_at pb u s d e)))
       + divergence_at pb a s * speed2 pb (velocity_at pb u s))))).
  - rewrite suml_scal, (ct_divergence _ _ CT a u Ha Hu). ring.
  - intros s Hs. rewrite (D s Hs).
    assert (E : sumn (pb_dim pb) (fun d => transport pb a u s d * velocity_at pb u s d) =
      / 2 * (sumn (pb_dim pb) (fun e => velocity_at pb a s e * (2 * sumn (pb_dim pb) (fun d => velocity_at pb u s d * gradient_at pb u s d e)))
       + divergence_at pb a s * speed2 pb (velocity_at pb u s))).
    { unfold transport, speed2. rewrite B.
      rewrite (sumn_ext _ _ (fun d => sumn (pb_dim pb) (fun e => velocity_at pb a s e * (velocity_at pb u s d * gradient_at pb u s d e)) + / 2 * (divergence_at pb a s * velocity_at pb u s d ^ 2))).
      2: { intros d _. rewrite Rmult_plus_distr_r, <- sumn_scal_r. f_equal; [apply sumn_ext; intros; ring|ring]. }
      rewrite sumn_plus, sumn_swap, !sumn_scal.
      rewrite (sumn_ext _ (fun e => velocity_at pb a s e * (2 * _)) (fun e => 2 * (velocity_at pb a s e * sumn (pb_dim pb) (fun d => velocity_at pb u s d * gradient_at pb u s d e)))) by (intros; ring).
      rewrite sumn_scal. rewrite (sumn_ext _ (fun j => sumn (pb_dim pb) _) (fun e => velocity_at pb a s e * sumn (pb_dim pb) (fun d => velocity_at pb u s d * gradient_at pb u s d e))) by (intros; rewrite sumn_scal; reflexivity).
      field. }
    rewrite E. field.
Qed.
(** the pressure modes that are removed from the continuity residual do not matter *)
Lemma pressure_work (x : field) : at_rest_on_walls pb (fst x) -> exists Q,
  sumn (pb_np pb) (fun i => Q i ^ 2) <= sumn (pb_np pb) (fun i => snd x i ^ 2) /\
  sumn (pb_np pb) (fun i => without_means pb (continuity_defect pb nothing x) i * Q i)
  = suml (pb_sites pb) (fun s => st_JxW s * (divergence_at pb (fst x) s * pressure_at pb (snd x) s)).
Proof.
  intros W. set (n := pb_np pb). set (c := continuity_defect pb nothing x).
  assert (step : forall (m : option mode) (P : vec), (forall k, m = Some k -> pb_m0 pb = Some k \/ pb_m1 pb = Some k) -> exists Q,
     (exists z, forall i, Q i = P i - z * match m with Some k => mode_vector k i | None => 0 end) /\
     sumn n (fun i => Q i ^ 2) <= sumn n (fun i => P i ^ 2) /\
     (forall k, m = Some k -> sumn n (fun i => Q i * mode_vector k i) = 0) /\
     sumn n (fun i => c i * Q i) = sumn n (fun i => c i * P i)).
  { intros [k|] P Hm.
    - destruct (orthogonal_part n (mode_vector k) P) as (z & Z1 & Z2). exists (fun i => P i - z * mode_vector k i).
      split; [exists z; reflexivity|]. split; [exact Z2|]. split; [intros k' [= <-]; exact Z1|].
      rewrite (sumn_ext _ _ (fun i => c i * P i - z * (c i * mode_vector k i))) by (intros; ring). rewrite sumn_minus, sumn_scal.
      unfold c at 2, n at 2. rewrite tested_continuity, (constants k (fst x) (Hm k eq_refl) W). ring.
    - exists P. split; [exists 0; intros; ring|]. split; [lra|]. split; [discriminate|reflexivity]. }
  destruct (step (pb_m0 pb) (snd x) ltac:(auto)) as (Q0 & _ & A2 & A3 & A4).
  destruct (step (pb_m1 pb) Q0 ltac:(auto)) as (Q1 & (z & B1) & B2 & B3 & B4).
  exists Q1. fold n. split; [lra|].
  assert (O : forall k, pb_m0 pb = Some k -> sumn n (fun i => Q1 i * mode_vector k i) = 0).
  { intros k Hk. rewrite (sumn_ext _ _ (fun i => Q0 i * mode_vector k i - z * 0)).
    - rewrite sumn_minus, (A3 k Hk), sumn_scal, sumn_0. ring.
    - intros i Hi. rewrite B1. destruct (pb_m1 pb) as [k'|] eqn:E1; [|ring]. assert (K := ct_modes _ _ CT k k' i Hk E1 Hi).
      replace ((Q0 i - z * mode_vector k' i) * mode_vector k i) with (Q0 i * mode_vector k i - z * (mode_vector k i * mode_vector k' i)) by ring. rewrite K. ring. }
  rewrite <- tested_continuity. fold c n. rewrite <- A4, <- B4.
  assert (M : forall m v, (forall k, m = Some k -> sumn n (fun i => Q1 i * mode_vector k i) = 0) -> sumn n (fun i => without_mean pb m v i * Q1 i) = sumn n (fun i => v i * Q1 i)).
  { intros [k|] v Hm; [|reflexivity]. cbn [without_mean]. set (b := mode_inverse k * sumn (pb_np pb) (fun j => mode_weights k j * v j)). 
    rewrite (sumn_ext _ _ (fun i => v i * Q1 i - b * (Q1 i * mode_vector k i))) by (intros; ring). rewrite sumn_minus, sumn_scal, (Hm k eq_refl). ring. }
  unfold without_means. rewrite M by exact B3. apply M. exact O.
Qed.

(** energy balance of the returned fields: what the residual can do is bounded by its size *)
Lemma work time (dudt : site -> nat -> R) (a : vec) (x : field) : fp_beta (pb_fp pb) = / 2 ->
  at_rest_on_walls pb a -> at_rest_on_walls pb (fst x) ->
  suml (pb_sites pb) (fun s => st_JxW s * (st_rho s * sumn (pb_dim pb) (fun d => dudt s d * velocity_at pb (fst x) s d))) + dissipation pb (fst x)
  <= free_defect_norm pb time dudt (transport pb a (fst x)) field_zero x * size pb x.
Proof.
  intros B Ha Hu. destruct (pressure_work x Hu) as (Q & Q1 & Q2).
  assert (CS := two_block_cs (pb_nu pb) (pb_np pb) (fun i => if dirichlet_dof pb i then 0 else - momentum_defect pb time dudt (transport pb a (fst x)) nothing x i) (fst x)
                  (without_means pb (continuity_defect pb nothing x)) Q).
  apply Rle_trans with (sumn (pb_nu pb) (fun i => (if dirichlet_dof pb i then 0 else - momentum_defect pb time dudt (transport pb a (fst x)) nothing x i) * fst x i) +
      sumn (pb_np pb) (fun i => without_means pb (continuity_defect pb nothing x) i * Q i)).
  - right. rewrite Q2.
    rewrite (sumn_ext _ _ (fun i => - (momentum_defect pb time dudt (transport pb a (fst x)) nothing x i * fst x i))).
    2: { intros i Hi. destruct (dirichlet_dof pb i) eqn:E; [rewrite (Hu i Hi E)|]; ring. }
    rewrite sumn_opp, tested_momentum, Ropp_involutive. rewrite <- (Rplus_0_r (_ + dissipation _ _)), <- (convection_is_idle a (fst x) B Ha Hu). unfold dissipation.
    rewrite <- !suml_plus. apply suml_ext. intros s _.
    rewrite (sumn_ext _ (fun d => (st_rho s * _ - _) * _) (fun d => st_rho s * (dudt s d * velocity_at pb (fst x) s d) + st_rho s * (transport pb a (fst x) s d * velocity_at pb (fst x) s d) - st_damping s * velocity_at pb (fst x) s d ^ 2)) by (intros; ring).
    rewrite sumn_minus, sumn_plus, !sumn_scal. unfold speed2.
    rewrite (sumn_ext _ (fun d => sumn (pb_dim pb) (fun e => sym (gradient_at pb (fst x) s) d e * _)) (fun d => sumn (pb_dim pb) (fun e => sym (gradient_at pb (fst x) s) d e ^ 2))) by (intros; apply sumn_ext; intros; ring).
    ring.
  - apply Rle_trans with (1 := CS). apply Rmult_le_compat; [apply sqrt_pos|apply sqrt_pos| |].
    + right. unfold free_defect_norm. cbn [field_zero fst snd]. f_equal. f_equal. apply sumn_ext. intros i _. destruct (dirichlet_dof pb i); ring.
    + unfold size. apply sqrt_le_1_alt. lra.
Qed.
End Work.

(** ** Difference quotients tested with the velocity *)
Section Identities.
Context {point : Type}.
Variable pb : problem point.
Definition minus_field (u v : site -> nat -> R) (s : site) (d : nat) : R := u s d - v s d.
Lemma euler_identity (u v : site -> nat -> R) h g : h <> 0 ->
  suml (pb_sites pb) (fun s => st_JxW s * (st_rho s * sumn (pb_dim pb) (fun d => ((u s d - v s d) / h + g * u s d) * u s d)))
  = (energy_of pb u - energy_of pb v + energy_of pb (minus_field u v)) / h + 2 * g * energy_of pb u.
Proof.
  intros Hh. unfold energy_of, speed2, minus_field.
  rewrite (suml_ext _ _ (fun s => (/ 2 / h + g) * (st_JxW s * (st_rho s * sumn (pb_dim pb) (fun d => u s d ^ 2)))
     + ((- (/ 2 / h)) * (st_JxW s * (st_rho s * sumn (pb_dim pb) (fun d => v s d ^ 2))) + / 2 / h * (st_JxW s * (st_rho s * sumn (pb_dim pb) (fun d => (u s d - v s d) ^ 2)))))).
  - rewrite !suml_plus, !suml_scal. field. exact Hh.
  - intros s _.
    assert (E : sumn (pb_dim pb) (fun d => ((u s d - v s d) / h + g * u s d) * u s d) =
      (/ 2 / h + g) * sumn (pb_dim pb) (fun d => u s d ^ 2) + ((- (/ 2 / h)) * sumn (pb_dim pb) (fun d => v s d ^ 2) + / 2 / h * sumn (pb_dim pb) (fun d => (u s d - v s d) ^ 2))).
    { rewrite <- !sumn_scal, <- !sumn_plus. apply sumn_ext. intros. field. exact Hh. }
    rewrite E. ring.
Qed.
(** 2 u - v *)
Definition ahead (u v : site -> nat -> R) (s : site) (d : nat) : R := 2 * u s d - v s d.
(** u - 2 v + w *)
Definition bend (u v w : site -> nat -> R) (s : site) (d : nat) : R := u s d - 2 * v s d + w s d.
Lemma bdf_identity (u v w : site -> nat -> R) h g : h <> 0 ->
  suml (pb_sites pb) (fun s => st_JxW s * (st_rho s * sumn (pb_dim pb) (fun d => ((3 * u s d - 4 * v s d + w s d) / (2 * h) + g * u s d) * u s d)))
  = ((energy_of pb u + energy_of pb (ahead u v)) / 2 - (energy_of pb v + energy_of pb (ahead v w)) / 2 + energy_of pb (bend u v w) / 2) / h + 2 * g * energy_of pb u.
Proof.
  intros Hh. unfold energy_of, speed2, ahead, bend.
  set (Q := fun (z : site -> nat -> R) s => st_JxW s * (st_rho s * sumn (pb_dim pb) (fun d => z s d ^ 2))).
  rewrite (suml_ext _ _ (fun s => (/ 4 / h + g) * Q u s + (/ 4 / h * Q (ahead u v) s + (- (/ 4 / h) * Q v s + (- (/ 4 / h) * Q (ahead v w) s + / 4 / h * Q (bend u v w) s))))).
  - rewrite !suml_plus, !suml_scal. unfold Q, ahead, bend. field. exact Hh.
  - intros s _. unfold Q, ahead, bend.
    assert (E : sumn (pb_dim pb) (fun d => ((3 * u s d - 4 * v s d + w s d) / (2 * h) + g * u s d) * u s d) =
      (/ 4 / h + g) * sumn (pb_dim pb) (fun d => u s d ^ 2) + (/ 4 / h * sumn (pb_dim pb) (fun d => (2 * u s d - v s d) ^ 2)
      + (- (/ 4 / h) * sumn (pb_dim pb) (fun d => v s d ^ 2) + (- (/ 4 / h) * sumn (pb_dim pb) (fun d => (2 * v s d - w s d) ^ 2) + / 4 / h * sumn (pb_dim pb) (fun d => (u s d - 2 * v s d + w s d) ^ 2))))).
    { rewrite <- !sumn_scal, <- !sumn_plus. apply sumn_ext. intros. field. exact Hh. }
    rewrite E. ring.
Qed.
Lemma start_identity (u v : site -> nat -> R) : energy_of pb (ahead u v) = 2 * (energy_of pb u - energy_of pb v + energy_of pb (minus_field u v)) + energy_of pb v.
Proof.
  unfold energy_of, speed2, ahead, minus_field. set (Q := fun (z : site -> nat -> R) s => st_JxW s * (st_rho s * sumn (pb_dim pb) (fun d => z s d ^ 2))).
  rewrite (suml_ext _ _ (fun s => 2 * Q u s + ((-1) * Q v s + 2 * Q (minus_field u v) s))).
  - rewrite !suml_plus, !suml_scal. unfold Q, minus_field. field.
  - intros s _. unfold Q, minus_field.
    assert (E : sumn (pb_dim pb) (fun d => (2 * u s d - v s d) ^ 2) = 2 * sumn (pb_dim pb) (fun d => u s d ^ 2) + ((-1) * sumn (pb_dim pb) (fun d => v s d ^ 2) + 2 * sumn (pb_dim pb) (fun d => (u s d - v s d) ^ 2))).
    { rewrite <- !sumn_scal, <- !sumn_plus. apply sumn_ext. intros. ring. }
    rewrite E. ring.
Qed.
End Identities.

(** ** The run *)
Section Run.
Context {point : Type}.
Variable pb : problem point.
Variable r : R.
Variable env : nat -> environment.
Variable s0 : state.
Variable p : ts_params RNum.
Notation x := (fun k => r_sol (run_steps pb env k s0)).
Notation t := (fun k => now (r_clock (run_steps pb env k s0))).
Notation u k := (velocity_at pb (fst (r_sol (run_steps pb env k s0)))).

(** the tolerance, and what makes step [k] a solution of the discrete equations: a success report of the nonlinear iteration, reliable linear
    solvers for the semi-implicit scheme (it always reports success, C108) *)
Definition tolerance : R := match fp_linearization (pb_fp pb) with coupled_velocity_semi_implicit => linear_bound (pb_fp pb) | _ => fp_tol_nl_iteration (pb_fp pb) end.
Definition succeeded (k : nat) : Prop :=
  match fp_linearization (pb_fp pb) with
  | coupled_velocity_semi_implicit => (Z.of_nat k <= 4294967296)%Z /\ reliable pb (env (k - 1)%nat) (run_steps pb env (k - 1) s0)
  | _ => report pb env (k - 1) s0 <> (0, 0)%Z
  end.
(** the start of a run: formulation with skew-symmetric convection, container, no body force, initial velocity zero on the walls *)
Record enclosed_run : Prop := {
  en_container : container pb r;
  en_start : r_clock s0 = ts_init p;
  en_time : well_posed p;
  en_type : fp_physical_type (pb_fp pb) = incompressible;
  en_skew : fp_beta (pb_fp pb) = / 2;
  en_formulation : In (fp_linearization (pb_fp pb)) [coupled_implicit_newton; coupled_implicit_picard; coupled_velocity_semi_implicit];
  en_iterations : (0 < fp_max_nl_iteration (pb_fp pb) < 4294967296)%Z;
  en_force : forall k, e_user (env k) = field_zero;
  en_walls : at_rest_on_walls pb (fst (r_sol s0)) }.
Hypothesis EN : enclosed_run.
Let CT := en_container EN.

Lemma energy_nonneg w : 0 <= energy_of pb w.
Proof.
  destruct (ct_density _ _ CT) as [D1 D2]. destruct (ct_signs _ _ CT) as [_ S2].
  assert (0 <= suml (pb_sites pb) (fun s => st_JxW s * (st_rho s * speed2 pb (w s)))); [|unfold energy_of; lra].
  revert D2 S2. induction (pb_sites pb) as [|s l IH]; intros D2 S2; cbn [suml]; [lra|].
  apply Rplus_le_le_0_compat; [|apply IH; intros; [apply D2|apply S2]; right; assumption].
  apply Rmult_le_pos; [apply S2; left; reflexivity|]. rewrite D2 by (left; reflexivity). apply Rmult_le_pos; [exact D1|]. apply sumn_nonneg. intros; apply pow2_ge_0.
Qed.
Lemma dissipation_nonneg w : 0 <= dissipation pb w.
Proof.
  destruct (ct_signs _ _ CT) as [S1 S2]. unfold dissipation. revert S2. induction (pb_sites pb) as [|s l IH]; intros S2; cbn [suml]; [lra|].
  apply Rplus_le_le_0_compat; [|apply IH; intros; apply S2; right; assumption].
  destruct (S2 s (or_introl eq_refl)) as (J & M & Dm). apply Rmult_le_pos; [exact J|].
  assert (0 <= sumn (pb_dim pb) (fun d => sumn (pb_dim pb) (fun e => sym (gradient_at pb w s) d e ^ 2))) by (apply sumn_nonneg; intros; apply sumn_nonneg; intros; apply pow2_ge_0).
  assert (0 <= speed2 pb (velocity_at pb w s)) by (apply sumn_nonneg; intros; apply pow2_ge_0).
  assert (0 <= divergence_at pb w s ^ 2) by apply pow2_ge_0. nra.
Qed.
Lemma force_free : shift_is_force_free pb.
Proof. intros m _ Hm i Hi. exact (ct_constants _ _ CT m i (or_introl Hm) Hi). Qed.
Lemma step_count : exists n, at_end (r_clock (run_steps pb env n s0)) = true /\ (forall k, (k < n)%nat -> at_end (r_clock (run_steps pb env k s0)) = false) /\ t n = tp_end p.
Proof.
  assert (Ec : forall k, r_clock (run_steps pb env k s0) = next_n k (ts_init p)) by (intros k; rewrite clock_run, (en_start EN); reflexivity).
  destruct (en_time EN) as (W1 & W2 & W3 & W4). destruct (plain_loop_terminates p W1 W2 W4) as (n & Hn & He & Ht & Hk). exists n.
  rewrite !Ec. split; [exact He|]. split; [intros k L; rewrite Ec; apply Hk, L|exact Ht].
Qed.
Lemma rest k : at_rest_on_walls pb (fst (x k)).
Proof.
  destruct k as [|k]; [exact (en_walls EN)|]. intros i Hi D. cbn [run_steps]. apply (boundary_step pb (env k) (run_steps pb env k s0)).
  - destruct (en_formulation EN) as [<-|[<-|[<-|[]]]]; reflexivity.
  - apply (ct_walls _ _ CT); assumption.
Qed.
Lemma rest_predicted k : at_rest_on_walls pb (predicted k t x).
Proof. intros i Hi D. unfold predicted. rewrite !rest by assumption. destruct (3 <=? k)%nat; ring. Qed.

(** one step: the energy gained is bounded by the work of the residual *)
Lemma step_work k : (tp_scheme p = bdf_2 \/ tp_scheme p = implicit_euler) -> (1 <= k)%nat ->
  (forall j, (j < k)%nat -> at_end (r_clock (run_steps pb env j s0)) = false) -> succeeded k ->
  t (k - 1)%nat < t k /\ 0 <= tolerance /\
  exists delta, Rabs delta <= / 1000000000000 /\
   suml (pb_sites pb) (fun s => st_JxW s * (st_rho s * sumn (pb_dim pb) (fun d => derivative pb (tp_scheme p) k t x delta s d * u k s d))) + dissipation pb (fst (x k))
   <= tolerance * size pb (x k).
Proof.
  intros Hs Hk Hj Hok. destruct k as [|k]; [lia|]. replace (S k - 1)%nat with k in * by lia. clear Hk.
  assert (Ec : forall k, r_clock (run_steps pb env k s0) = next_n k (ts_init p)) by (intros j; rewrite clock_run, (en_start EN); reflexivity).
  assert (Hj2 : forall j, (j < S k)%nat -> at_end (next_n j (ts_init p)) = false) by (intros j L; rewrite <- Ec; apply Hj, L).
  assert (W := en_time EN). split; [rewrite !Ec; apply times_increase; assumption|].
  cut (exists delta, Rabs delta <= / 1000000000000 /\ exists a, at_rest_on_walls pb a /\
    free_defect_norm pb (t (S k)) (derivative pb (tp_scheme p) (S k) t x delta) (transport pb a (fst (x (S k)))) field_zero (x (S k)) <= tolerance).
  { intros (delta & Hd & a & Ha & L). split; [apply Rle_trans with (2 := L), sqrt_pos|]. exists delta. split; [exact Hd|].
    apply Rle_trans with (1 := work pb r CT (t (S k)) (derivative pb (tp_scheme p) (S k) t x delta) a (x (S k)) (en_skew EN) Ha (rest (S k))).
    apply Rmult_le_compat_r; [apply sqrt_pos|exact L]. }
  assert (Lin : is_implicit (fp_linearization (pb_fp pb)) = true \/ (Z.of_nat k < 4294967296)%Z).
  { unfold succeeded in Hok. destruct (en_formulation EN) as [E|[E|[E|[]]]]; rewrite <- E in *; [left; reflexivity..|right; lia]. }
  destruct (step_terms pb env s0 p k (en_start EN) W Hs Hj2 Lin) as (Ht1 & delta & Hd & E). exists delta. split; [exact Hd|].
  destruct (E _ eq_refl) as [E1 E2]. clear E.
  set (conv := convective pb (S k) t x) in *.
  assert (Hconv : exists a, at_rest_on_walls pb a /\ conv = transport pb a (fst (x (S k)))).
  { unfold conv, convective. destruct (en_formulation EN) as [E|[E|[E|[]]]]; rewrite <- E.
    - exists (fst (x (S k))). split; [apply rest|reflexivity].
    - exists (fst (x (S k))). split; [apply rest|reflexivity].
    - exists (predicted (S k) t x). split; [apply rest_predicted|reflexivity]. }
  destruct Hconv as (a & Ha & Hconv). exists a. split; [exact Ha|]. rewrite <- Hconv, <- E1, <- E2.
  assert (Z : forall k, snd (e_user (env k)) = fun _ => 0) by (intros j; rewrite (en_force EN); reflexivity).
  unfold tolerance. unfold succeeded in Hok. replace (S k - 1)%nat with k in Hok by lia.
  assert (free_le : forall time dudt conv (y : field), free_defect_norm pb time dudt conv field_zero y = defect_norm pb time dudt conv field_zero y).
  { intros. unfold free_defect_norm, defect_norm. f_equal. f_equal. apply sumn_ext. intros i _. destruct (dirichlet_dof pb i); [cbn [field_zero fst]; ring|reflexivity]. }
  destruct (en_formulation EN) as [F|[F|[F|[]]]]; rewrite <- F in *.
  - rewrite free_le, <- (en_force EN k). left.
    apply (implicit_step pb (env k) (run_steps pb env k s0)); try assumption; [rewrite <- F; reflexivity|exact (en_type EN)|exact (en_iterations EN)|exact force_free].
  - rewrite free_le, <- (en_force EN k). left.
    apply (implicit_step pb (env k) (run_steps pb env k s0)); try assumption; [rewrite <- F; reflexivity|exact (en_type EN)|exact (en_iterations EN)|exact force_free].
  - rewrite <- (en_force EN k).
    apply (linear_step pb (env k) (run_steps pb env k s0)); try assumption; [rewrite <- F; reflexivity|exact (en_type EN)|exact (proj1 (en_iterations EN))|exact force_free|exact (ct_pressure _ _ CT)|exact (proj2 Hok)].
Qed.

(** the time between two levels, the energy, dissipated power and tolerated power of step [k] *)
Definition step_length (k : nat) : R := t k - t (k - 1)%nat.
Definition energy (k : nat) : R := kinetic_energy pb (fst (x k)).
Definition dissipated (k : nat) : R := step_length k * dissipation pb (fst (x k)).
Definition slack (k : nat) : R := step_length k * (tolerance * size pb (x k)).

(** Implicit Euler, any step sizes: kinetic energy plus dissipation is not more than before, up to what the tolerance of the solver allows and
    the relative rounding of the leading weight (C02); the change of the velocity itself is damped as well *)
Theorem C110_euler_step k : tp_scheme p = implicit_euler -> (1 <= k)%nat ->
  (forall j, (j < k)%nat -> at_end (r_clock (run_steps pb env j s0)) = false) -> succeeded k ->
  (1 - 2 / 1000000000000) * energy k + energy_of pb (minus_field (u k) (u (k - 1)%nat)) + dissipated k <= energy (k - 1) + slack k.
Proof.
  intros Hs Hk Hj Hok. destruct (step_work k (or_intror Hs) Hk Hj Hok) as (Inc & _ & delta & Hd & Hw).
  unfold energy, kinetic_energy, dissipated, slack, step_length.
  set (h := t k - t (k - 1)%nat) in *. assert (Hh : 0 < h) by (unfold h; lra).
  rewrite (suml_ext _ _ (fun s => st_JxW s * (st_rho s * sumn (pb_dim pb) (fun d => ((u k s d - u (k - 1)%nat s d) / h + delta / h * u k s d) * u k s d)))) in Hw.
  2: { intros s _. f_equal. f_equal. apply sumn_ext. intros d _. f_equal. unfold derivative, difference, lead, three_levels. rewrite Hs. cbn [scheme_eqb andb].
       fold h. field. lra. }
  rewrite euler_identity in Hw by lra.
  assert (Hd1 := Rle_abs (- delta)). rewrite Rabs_Ropp in Hd1. assert (E0 := energy_nonneg (u k)).
  set (A := energy_of pb (u k)) in *. set (B := energy_of pb (u (k - 1)%nat)) in *. set (C := energy_of pb (minus_field (u k) (u (k - 1)%nat))) in *.
  set (D := dissipation pb _) in *. set (T := tolerance * _) in *. clearbody A B C D T h. clear - Hh Hw Hd Hd1 E0.
  apply Rmult_le_compat_l with (r := h) in Hw; [|lra]. replace (h * ((A - B + C) / h + 2 * (delta / h) * A + D)) with (A - B + C + 2 * (delta * A) + h * D) in Hw by (field; lra).
  assert (- delta * A <= / 1000000000000 * A) by (apply Rmult_le_compat_r; lra). lra.
Qed.
(** The energy norm of BDF-2: half the energy of u_k and half the energy of 2 u_k - u_(k-1) *)
Definition bdf_energy (k : nat) : R := (energy k + energy_of pb (ahead (u k) (u (k - 1)%nat))) / 2.
Theorem C110_bdf_step k : tp_scheme p = bdf_2 -> (2 <= k)%nat ->
  (forall j, (j < k)%nat -> at_end (r_clock (run_steps pb env j s0)) = false) -> succeeded k -> step_length k = step_length (k - 1) ->
  bdf_energy k + energy_of pb (bend (u k) (u (k - 1)%nat) (u (k - 2)%nat)) / 2 + dissipated k
  <= bdf_energy (k - 1) + slack k + 3 / 1000000000000 * energy k.
Proof.
  intros Hs Hk Hj Hok He. destruct (step_work k (or_introl Hs) ltac:(lia) Hj Hok) as (Inc & _ & delta & Hd & Hw).
  unfold bdf_energy, energy, kinetic_energy, dissipated, slack. replace (k - 1 - 1)%nat with (k - 2)%nat by lia.
  unfold step_length in *. replace (k - 1 - 1)%nat with (k - 2)%nat in He by lia.
  set (h := t k - t (k - 1)%nat) in *. assert (Hh : 0 < h) by (unfold h; lra).
  rewrite (suml_ext _ _ (fun s => st_JxW s * (st_rho s * sumn (pb_dim pb) (fun d => ((3 * u k s d - 4 * u (k - 1)%nat s d + u (k - 2)%nat s d) / (2 * h) + 3 / 2 * delta / h * u k s d) * u k s d)))) in Hw.
  2: { intros s _. f_equal. f_equal. apply sumn_ext. intros d _. f_equal. unfold derivative, difference, lead, three_levels. rewrite Hs. cbn [scheme_eqb andb].
       destruct (Nat.leb_spec 2 k) as [_|?]; [|lia]. fold h.
       replace (t k - t (k - 2)%nat) with (2 * h) by (unfold h in *; lra). replace (t (k - 1)%nat - t (k - 2)%nat) with h by lra.
       replace (t (k - 1)%nat - t k) with (- h) by (unfold h; ring). replace (t (k - 2)%nat - t (k - 1)%nat) with (- h) by lra. replace (t (k - 2)%nat - t k) with (- (2 * h)) by (unfold h in *; lra).
       field. lra. }
  rewrite bdf_identity in Hw by lra.
  assert (Hd1 := Rle_abs (- delta)). rewrite Rabs_Ropp in Hd1. assert (E0 := energy_nonneg (u k)).
  set (A := energy_of pb (u k)) in *. set (A2 := energy_of pb (ahead (u k) (u (k - 1)%nat))) in *.
  set (B := energy_of pb (u (k - 1)%nat)) in *. set (B2 := energy_of pb (ahead (u (k - 1)%nat) (u (k - 2)%nat))) in *. set (C := energy_of pb (bend _ _ _)) in *.
  set (D := dissipation pb _) in *. set (T := tolerance * _) in *. clearbody A A2 B B2 C D T h. clear - Hh Hw Hd Hd1 E0.
  apply Rmult_le_compat_l with (r := h) in Hw; [|lra].
  replace (h * (((A + A2) / 2 - (B + B2) / 2 + C / 2) / h + 2 * (3 / 2 * delta / h) * A + D)) with ((A + A2) / 2 - (B + B2) / 2 + C / 2 + 3 * (delta * A) + h * D) in Hw by (field; lra).
  assert (- delta * A <= / 1000000000000 * A) by (apply Rmult_le_compat_r; lra). lra.
Qed.
(** the first step of BDF-2 is a step of implicit Euler *)
Lemma bdf_first_step : tp_scheme p = bdf_2 -> at_end (r_clock s0) = false -> succeeded 1 ->
  (1 - 6 / 1000000000000) * bdf_energy 1 + dissipated 1 <= energy 0 + 3 / 2 * slack 1.
Proof.
  intros Hs Hj Hok.
  assert (Hj2 : forall j, (j < 1)%nat -> at_end (r_clock (run_steps pb env j s0)) = false) by (intros j L; replace j with 0%nat by lia; exact Hj).
  destruct (step_work 1 (or_introl Hs) ltac:(lia) Hj2 Hok) as (Inc & Ht & delta & Hd & Hw).
  unfold bdf_energy. change (1 - 1)%nat with 0%nat in *. rewrite start_identity. unfold energy, kinetic_energy, dissipated, slack, step_length. change (1 - 1)%nat with 0%nat.
  set (h := t 1%nat - t 0%nat) in *. assert (Hh : 0 < h) by (unfold h; lra).
  rewrite (suml_ext _ _ (fun s => st_JxW s * (st_rho s * sumn (pb_dim pb) (fun d => ((u 1%nat s d - u 0%nat s d) / h + delta / h * u 1%nat s d) * u 1%nat s d)))) in Hw.
  2: { intros s _. f_equal. f_equal. apply sumn_ext. intros d _. f_equal. unfold derivative, difference, lead, three_levels. rewrite Hs. cbn [scheme_eqb andb Nat.leb].
       change (1 - 1)%nat with 0%nat. fold h. field. lra. }
  rewrite euler_identity in Hw by lra.
  assert (Hd1 := Rle_abs (- delta)). rewrite Rabs_Ropp in Hd1. assert (E0 := energy_nonneg (u 1%nat)). assert (E1 := energy_nonneg (minus_field (u 1%nat) (u 0%nat))).
  assert (E2 := dissipation_nonneg (fst (x 1%nat))). assert (E3 := energy_nonneg (ahead (u 1%nat) (u 0%nat))). rewrite start_identity in E3.
  set (A := energy_of pb (u 1%nat)) in *. set (B := energy_of pb (u 0%nat)) in *. set (C := energy_of pb (minus_field _ _)) in *.
  set (D := dissipation pb _) in *. set (T := tolerance * _) in *. clearbody A B C D T h. clear - Hh Hw Hd Hd1 E0 E1 E2 E3.
  apply Rmult_le_compat_l with (r := h) in Hw; [|lra]. replace (h * ((A - B + C) / h + 2 * (delta / h) * A + D)) with (A - B + C + 2 * (delta * A) + h * D) in Hw by (field; lra).
  assert (- delta * A <= / 1000000000000 * A) by (apply Rmult_le_compat_r; lra). assert (0 <= h * D) by (apply Rmult_le_pos; lra). lra.
Qed.

Lemma accumulate (f : R) (G D T : nat -> R) n : 0 <= f <= 1 -> (forall k, (1 <= k <= n)%nat -> 0 <= D k /\ 0 <= T k /\ f * G k + D k <= G (k - 1)%nat + T k) ->
  f ^ n * (G n + sumn n (fun k => D (S k))) <= G 0%nat + sumn n (fun k => T (S k)).
Proof.
  intros Hf H. 
  cut (f ^ n * G n + sumn n (fun k => f ^ k * D (S k)) <= G 0%nat + sumn n (fun k => T (S k))).
  { intros K. rewrite Rmult_plus_distr_l, <- sumn_scal. apply Rle_trans with (2 := K). apply Rplus_le_compat_l. apply sumn_le. intros k Hk.
    destruct (H (S k) ltac:(lia)) as (Dk & _). apply Rmult_le_compat_r; [exact Dk|]. replace n with (k + (n - k))%nat at 1 by lia. rewrite pow_add.
    rewrite <- (Rmult_1_r (f ^ k)) at 2. apply Rmult_le_compat_l; [apply pow_le; lra|]. rewrite <- (pow1 (n - k)). apply pow_incr. lra. }
  induction n as [|n IH]; [cbn; lra|]. specialize (IH ltac:(intros k Hk; apply H; lia)). cbn [sumn].
  destruct (H (S n) ltac:(lia)) as (Dk & Tk & K). replace (S n - 1)%nat with n in K by lia.
  assert (P : 0 <= f ^ n <= 1) by (split; [apply pow_le; lra|rewrite <- (pow1 n); apply pow_incr; lra]).
  assert (K2 := Rmult_le_compat_l (f ^ n) _ _ (proj1 P) K). cbn [pow].
  assert (f ^ n * T (S n) <= T (S n)) by nra. nra.
Qed.
(** whole runs *)
Theorem C110_euler_run n : tp_scheme p = implicit_euler ->
  (forall j, (j < n)%nat -> at_end (r_clock (run_steps pb env j s0)) = false) -> (forall k, (1 <= k <= n)%nat -> succeeded k) ->
  (1 - 2 / 1000000000000) ^ n * (energy n + sumn n (fun k => dissipated (S k))) <= energy 0 + sumn n (fun k => slack (S k)).
Proof.
  intros Hs Hj Hok. apply accumulate; [lra|]. intros k Hk.
  destruct (step_work k (or_intror Hs) ltac:(lia) ltac:(intros; apply Hj; lia) (Hok k Hk)) as (Inc & Ht & _).
  assert (K := C110_euler_step k Hs ltac:(lia) ltac:(intros; apply Hj; lia) (Hok k Hk)). assert (E := energy_nonneg (minus_field (u k) (u (k - 1)%nat))).
  assert (S1 : 0 <= size pb (x k)) by apply sqrt_pos.
  split; [apply Rmult_le_pos; [unfold step_length; lra|apply dissipation_nonneg]|]. split; [apply Rmult_le_pos; [unfold step_length; lra|apply Rmult_le_pos; assumption]|]. lra.
Qed.
Theorem C110_bdf_run n h : tp_scheme p = bdf_2 -> (1 <= n)%nat ->
  (forall j, (j < n)%nat -> at_end (r_clock (run_steps pb env j s0)) = false) -> (forall k, (1 <= k <= n)%nat -> succeeded k /\ step_length k = h) ->
  (1 - 6 / 1000000000000) ^ n * (energy n / 2 + sumn n (fun k => dissipated (S k))) <= energy 0 + 3 / 2 * sumn n (fun k => slack (S k)).
Proof.
  intros Hs Hn Hj Hok.
  assert (A := accumulate (1 - 6 / 1000000000000) (fun k => if Nat.eqb k 0 then energy 0 else bdf_energy k) dissipated (fun k => 3 / 2 * slack k) n).
  cbn beta in A. rewrite sumn_scal in A. cbn [Nat.eqb] in A. destruct (Nat.eqb_spec n 0) as [?|_]; [lia|].
  assert (P : 0 <= (1 - 6 / 1000000000000) ^ n) by (apply pow_le; lra).
  apply Rle_trans with ((1 - 6 / 1000000000000) ^ n * (bdf_energy n + sumn n (fun k => dissipated (S k)))).
  { apply Rmult_le_compat_l; [exact P|]. apply Rplus_le_compat_r. unfold bdf_energy. assert (E := energy_nonneg (ahead (u n) (u (n - 1)%nat))). lra. }
  apply A; [lra|]. clear A P. intros k Hk. destruct (Hok k Hk) as [Ok Hh].
  destruct (step_work k (or_introl Hs) ltac:(lia) ltac:(intros; apply Hj; lia) Ok) as (Inc & Ht & _).
  assert (S1 : 0 <= size pb (x k)) by apply sqrt_pos.
  assert (S2 : 0 <= slack k) by (apply Rmult_le_pos; [unfold step_length; lra|apply Rmult_le_pos; assumption]).
  split; [apply Rmult_le_pos; [unfold step_length; lra|apply dissipation_nonneg]|]. split; [lra|].
  destruct (Nat.eqb_spec k 0) as [?|_]; [lia|]. destruct (Nat.eqb_spec (k - 1) 0) as [Z|Z].
  - replace k with 1%nat in * by lia. apply bdf_first_step; [exact Hs|apply (Hj 0%nat); lia|exact Ok].
  - assert (K := C110_bdf_step k Hs ltac:(lia) ltac:(intros; apply Hj; lia) Ok ltac:(rewrite Hh; symmetry; apply Hok; lia)).
    assert (E := energy_nonneg (bend (u k) (u (k - 1)%nat) (u (k - 2)%nat))). assert (E1 := energy_nonneg (ahead (u k) (u (k - 1)%nat))).
    assert (E2 := energy_nonneg (u k)). unfold bdf_energy in *. unfold energy, kinetic_energy in *. lra.
Qed.
End Run.
Print Assumptions C110_euler_run.
Print Assumptions C110_bdf_run.

(** ** Example: one velocity unknown that is free, one on the wall, one pressure; one step of size 1 from U = -3/8.  At the first point the
    velocity is (U, 0) with derivatives d0 u0 = U and d1 u1 = -3 U, at the second point the velocity is zero and its divergence 2 U. *)
Definition en_fp (beta : R) : flow_params RNum :=
  MkFP (N:=RNum) 2 0 0 false false incompressible beta 2 false 1 1 0 0 1 (/ 1000000) coupled_implicit_picard 1 (/ 1000000) false u_ilu p_mass_diag 1 String.EmptyString 0 1 0 false false
    implicit_euler 0 1 1 0 0 0 1 1 0 0 0 0 1 1 0 false 1 0 false false false false false 0 0 false.
Definition en_site1 : site :=
  MkSite 1 (fun i d => if Nat.eqb i 0 then (if Nat.eqb d 0 then 1 else 0) else 1)
    (fun i d e => if Nat.eqb i 0 then (if Nat.eqb d e then (if Nat.eqb d 0 then 1 else - (3)) else 0) else 0) (fun _ => 1) 1 (/ 112) 0.
Definition en_site2 : site :=
  MkSite 1 (fun i d => if Nat.eqb i 0 then 0 else 1)
    (fun i d e => if Nat.eqb i 0 then (if Nat.eqb d e then (if Nat.eqb d 0 then 2 else 0) else 0) else 0) (fun _ => 1) 1 (/ 112) 0.
Definition en_pb (beta : R) : problem unit :=
  MkProblem (en_fp beta) 2 2 1 [en_site1; en_site2] (MkConditions (fun id => if Nat.eqb id 5 then Some (fun _ _ _ => 0) else None) (fun _ => false))
    [MkBFace 5%nat [(1%nat, tt, 0%nat)]] (fun _ => None) [] (fun _ => false) None None false.
Definition en_krylov (d : R) : Z -> R -> field -> nat -> krylov (N:=RNum) field :=
  fun _ _ _ _ => MkKrylov (N:=RNum) field 1%Z 0 (fun i => if Nat.eqb i 0 then d else 7, fun _ => 0) true.
Definition en_env (d : R) (k : nat) : environment :=
  MkEnv (en_krylov d) (en_krylov d) (fun _ => MkKrylov (N:=RNum) field 0%Z 0 field_zero false) (fun _ => 0) field_zero.
Definition en_u0 : vec := fun i => if Nat.eqb i 0 then - (3 / 8) else 0.
Definition en_s0 : state := MkState (ts_init ex_p) (en_u0, fun _ => 0) field_zero field_zero (MkPrec 0 0 true 0).

Lemma en_weights : weight (next (ts_init ex_p)) = 1 /\ weight_old (next (ts_init ex_p)) = - (1) /\ weight_old_old (next (ts_init ex_p)) = 0.
Proof.
  assert (B : next_uses_bdf (ts_init ex_p) = false) by reflexivity.
  assert (Ns : next_step (ts_init ex_p) = 1).
  { unfold next_step, next_hits_end, next_s, not_at_start. cbn. rnum. destruct (Reqb_spec 0 0) as [_|?]; [|congruence]. cbn.
    unfold Q2R. cbn. match goal with |- context [Rltb ?a ?b] => destruct (Rltb_spec a b) as [?|Q] end; [lra|exfalso; apply Q; lra]. }
  split; [|split].
  - unfold weight. cbn [next weight_val]. assert (Nw : next_new_weight (ts_init ex_p) = 1) by (unfold next_new_weight; rewrite B, Ns; cbn; unfold Q2R; cbn; field).
    unfold next_weight_changes. rewrite Nw. cbn. rnum. unfold Q2R. cbn. match goal with |- context [Rltb ?a ?b] => destruct (Rltb a b) end; [reflexivity|field].
  - unfold weight_old. cbn [next weight_old_val]. unfold next_weight_old. rewrite B, Ns. cbn. unfold Q2R. cbn. field.
  - unfold weight_old_old. cbn [next weight_old_old_val]. unfold next_weight_old_old. rewrite B. cbn. unfold Q2R. cbn. lra.
Qed.
Lemma en_x1 beta d : let x1 := r_sol (run_steps (en_pb beta) (en_env d) 1 en_s0) in
  fst x1 0%nat = - (3 / 8) + d /\ fst x1 1%nat = 0 /\ snd x1 0%nat = 0.
Proof.
  intros x1.
  assert (G : exists g : field, x1 = field_add g (distribute_update (en_pb beta) (fun i => if Nat.eqb i 0 then d else 7, fun _ => 0)) /\ fst g 0%nat = - (3 / 8) /\ fst g 1%nat = 0 /\ snd g 0%nat = 0).
  { eexists. unfold x1. clear x1. cbn [run_steps]. unfold advance_time_step, evaluate_time_step, solve_nonlinear_system. cbn [fst r_sol r_solution en_s0].
    change (Z.to_nat (fp_max_nl_iteration (pb_fp (en_pb beta)))) with 1%nat. cbn [nl_loop]. cbv zeta.
    assert (U : forall tol call, l_update field (solve_system field field_zero (oracles_at (en_pb beta) (en_env d 0) (init_time_advance (en_pb beta) en_s0)) (en_fp beta) tol call)
              = distribute_update (en_pb beta) (fun i => if Nat.eqb i 0 then d else 7, fun _ => 0)) by reflexivity.
    split.
    - cbn [en_pb pb_fp en_fp fp_linearization is_implicit negb]. unfold shift_pressure. change (pb_fix (en_pb beta)) with false. cbv iota.
      destruct (nltb _ _); cbn [ls_solution]; apply (f_equal (field_add _)); exact (U _ _).
    - cbn [ls_solution init_time_advance r_sol fst snd en_s0 r_clock]. unfold apply_boundary_conditions_u, distribute, no_hanging. cbn. unfold extrapolate. cbn.
      rewrite ?Rmult_0_l. repeat split; rnum; unfold Q2R; cbn; try lra. }
  destruct G as (g & -> & G0 & G1 & G2). cbn. rewrite G0, G1, G2. lra.
Qed.
Lemma en_report beta d : d + (1 - 2 * beta) * (- (3 / 8) + d) ^ 2 + (- (3 / 8) + d) / 4 = 0 -> report (en_pb beta) (en_env d) 0 en_s0 <> (0, 0)%Z.
Proof.
  intros Hd. unfold report. cbn [run_steps].
  assert (F : shift_is_force_free (en_pb beta)) by (intros m Hf; discriminate Hf).
  assert (T : tau1 (next (r_clock en_s0)) = 1) by (cbn; unfold Q2R; cbn; lra).
  apply (implicit_step (en_pb beta) (en_env d 0) en_s0 eq_refl eq_refl ltac:(cbn; lia) F T). clear F T.
  destruct (en_x1 beta d) as (X0 & X1 & X2). cbn [run_steps] in X0, X1, X2. set (x1 := r_sol (fst (advance_time_step (en_pb beta) (en_env d 0) en_s0))) in *. clearbody x1.
  change (r_clock en_s0) with (ts_init ex_p). destruct en_weights as (W0 & W1 & W2).
  unfold defect_norm. change (pb_nu (en_pb beta)) with 2%nat. change (pb_np (en_pb beta)) with 1%nat. cbn [sumn].
  change (dirichlet_dof (en_pb beta) 0) with false. change (dirichlet_dof (en_pb beta) 1) with true. cbv iota.
  match goal with |- sqrt (0 + ?a ^ 2 + ?b ^ 2 + (0 + ?c ^ 2)) < _ => assert (Ea : a = 0); [|assert (Eb : b = 0) by reflexivity; assert (Ec : c = 0)] end.
  - unfold momentum_defect. change (pb_sites (en_pb beta)) with [en_site1; en_site2]. change (pb_dim (en_pb beta)) with 2%nat. cbn [suml sumn].
    unfold convective_with. change (fp_linearization (pb_fp (en_pb beta))) with coupled_implicit_picard. cbv iota.
    unfold weighted, transport, divergence_at, external_load, pressure_at, test_divergence, sym. change (fp_beta (pb_fp (en_pb beta))) with beta.
    change (pb_dim (en_pb beta)) with 2%nat. change (pb_np (en_pb beta)) with 1%nat. cbn [sumn]. rewrite W0, W1, W2. 
    unfold velocity_at, gradient_at. change (pb_nu (en_pb beta)) with 2%nat. cbn [sumn]. cbn. rewrite X0, X1, X2.
    match goal with |- ?l = 0 => replace l with (- (d + (1 - 2 * beta) * (- (3 / 8) + d) ^ 2 + (- (3 / 8) + d) / 4)) by field end. rewrite Hd. ring.
  - unfold without_means, without_mean. cbn [en_pb pb_m0 pb_m1]. unfold continuity_defect. cbn [en_pb pb_con_p pb_sites suml]. unfold divergence_at, gradient_at. cbn. rewrite X0, X1. ring.
  - rewrite Ea, Eb, Ec. replace (0 + 0 ^ 2 + 0 ^ 2 + (0 + 0 ^ 2)) with 0 by ring. rewrite sqrt_0. cbn. lra.
Qed.
Lemma en_energy beta (v : vec) : v 1%nat = 0 -> kinetic_energy (en_pb beta) v = v 0%nat ^ 2 / 2.
Proof. intros H. unfold kinetic_energy, energy_of, speed2, velocity_at. cbn. rewrite H. field. Qed.
Lemma en_is_container beta : container (en_pb beta) 1.
Proof.
  assert (D1 : dirichlet_dof (en_pb beta) 1 = true) by reflexivity.
  constructor.
  - split; [lra|]. intros s [<-|[<-|[]]]; reflexivity.
  - split; [cbn; lra|]. intros s [<-|[<-|[]]]; cbn; lra.
  - intros time i Hi Hd. change (pb_nu (en_pb beta)) with 2%nat in Hi. destruct i as [|[|i]]; [discriminate Hd| |lia]. split.
    + exists (MkBFace 5%nat [(1%nat, tt, 0%nat)]). split; [left; reflexivity|]. exists (fun _ _ => 0), tt, 0%nat. split; [reflexivity|]. split; [left; reflexivity|reflexivity].
    + intros f v [<-|[]] (g & y & k & E & Hin & ->). cbn in E. inversion E; subst g. reflexivity.
  - intros f [].
  - reflexivity.
  - intros a u Ha Hu. assert (A1 := Ha 1%nat ltac:(cbn; lia) D1). assert (U1 := Hu 1%nat ltac:(cbn; lia) D1).
    unfold speed2, divergence_at, velocity_at, gradient_at. cbn. rewrite A1, U1. ring.
  - intros m i [H|H]; discriminate H.
  - intros m m' i H; discriminate H.
Qed.
Lemma en_not_at_end k : (k < 1)%nat -> at_end (r_clock (run_steps (en_pb (/ 2)) (en_env (3 / 40)) k en_s0)) = false.
Proof. intros H. replace k with 0%nat by lia. reflexivity. Qed.
(** the hypotheses of C110_euler_step and C110_euler_run hold; viscosity takes energy out *)
Example C110_nonvacuous : let pb := en_pb (/ 2) in let env := en_env (3 / 40) in
  enclosed_run pb 1 env en_s0 ex_p /\ tp_scheme ex_p = implicit_euler /\ succeeded pb env en_s0 1 /\
  (forall j, (j < 1)%nat -> at_end (r_clock (run_steps pb env j en_s0)) = false) /\
  energy pb env en_s0 0 = 9 / 128 /\ energy pb env en_s0 1 = 9 / 200.
Proof.
  intros pb env. split; [|split; [reflexivity|split; [|split; [apply en_not_at_end|]]]].
  - constructor; try reflexivity.
    + apply en_is_container.
    + unfold well_posed; cbn; rnum; lra.
    + right; left; reflexivity.
    + split; reflexivity.
    + intros i Hi Hd. change (pb_nu pb) with 2%nat in Hi. destruct i as [|[|i]]; [discriminate Hd|reflexivity|lia].
  - apply en_report. lra.
  - unfold energy. cbn [run_steps r_sol en_s0 fst]. destruct (en_x1 (/ 2) (3 / 40)) as (X0 & X1 & _). fold pb env in X0, X1. split; unfold pb.
    + rewrite en_energy by reflexivity. cbn. field.
    + change (fst (advance_time_step (en_pb (/ 2)) (env 0%nat) en_s0)) with (run_steps pb env 1 en_s0). rewrite en_energy by exact X1. rewrite X0. field.
Qed.
(** With the convective formulation, every other hypothesis as before, the energy of the enclosed flow grows in a successful step that fulfils
    the discrete equations exactly *)
Theorem C110_violation_convective : exists (pb : problem unit) env s0 p,
  container pb 1 /\ r_clock s0 = ts_init p /\ well_posed p /\ tp_scheme p = implicit_euler /\ fp_physical_type (pb_fp pb) = incompressible /\
  fp_beta (pb_fp pb) = parse_beta (N:=RNum) "convective"%string /\ fp_linearization (pb_fp pb) = coupled_implicit_picard /\
  (forall k, e_user (env k) = field_zero) /\ at_rest_on_walls pb (fst (r_sol s0)) /\
  report pb env 0 s0 <> (0, 0)%Z /\
  energy pb env s0 0 = 9 / 128 /\ energy pb env s0 1 = 1 / 8 /\ 0 < dissipated pb env s0 1.
Proof.
  exists (en_pb 0), (en_env (- (1 / 8))), en_s0, ex_p. split; [apply en_is_container|]. split; [reflexivity|]. split; [unfold well_posed; cbn; rnum; lra|].
  do 2 (split; [reflexivity|]). split; [cbn; unfold Q2R; cbn; lra|]. do 2 (split; [reflexivity|]).
  split. { intros i Hi Hd. change (pb_nu (en_pb 0)) with 2%nat in Hi. destruct i as [|[|i]]; [discriminate Hd|reflexivity|lia]. }
  split; [apply en_report; lra|]. destruct (en_x1 0 (- (1 / 8))) as (X0 & X1 & _). split; [|split].
  - unfold energy. rewrite en_energy by reflexivity. cbn. field.
  - unfold energy. rewrite en_energy by exact X1. rewrite X0. field.
  - unfold dissipated, step_length. change (1 - 1)%nat with 0%nat. change (now (r_clock (run_steps (en_pb 0) (en_env (- (1 / 8))) 1 en_s0))) with (now (next (ts_init ex_p))).
    rewrite ex_time. change (now (r_clock (run_steps (en_pb 0) (en_env (- (1 / 8))) 0 en_s0))) with 0.
    set (v := fst (r_sol (run_steps (en_pb 0) (en_env (- (1 / 8))) 1 en_s0))) in *. clearbody v.
    unfold dissipation, sym, gradient_at, divergence_at. cbn. rewrite X0, X1. lra.
Qed.
Print Assumptions C110_violation_convective.
