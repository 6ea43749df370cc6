(** * C108: a whole run of the flow solver *)
From Coq Require Import Reals List Bool Arith ZArith Lra Lia.
From Coq Require Import FunctionalExtensionality.
From Verif Require Import Num SumR Model_Parameters Model_TimeStepping Spec_TimeStepping Proofs_TimeStepping Proofs_TimeStepping2.
From Verif Require Import Model_NonlinearSolver Properties_NonlinearSolver Model_NSOperator Properties_NSOperator.
From Verif Require Import Model_BoundaryValues Properties_BoundaryValues Model_Run.
Import ListNotations.
Open Scope R_scope.

(** ** Specification *)
(** backward difference formulas at the last of the time levels t 0 < t 1 < ...: derivative at t k of the polynomial through the last
    three (BDF-2, from the second step on) or two values *)
Definition three_levels (sch : scheme) (k : nat) : bool := scheme_eqb sch bdf_2 && (2 <=? k)%nat.
Definition lead (sch : scheme) (k : nat) (t : nat -> R) : R :=
  1 / (t k - t (k - 1)%nat) + if three_levels sch k then 1 / (t k - t (k - 2)%nat) else 0.
Definition difference (sch : scheme) (k : nat) (t x : nat -> R) : R :=
  if three_levels sch k
  then x k * (1 / (t k - t (k - 1)%nat) + 1 / (t k - t (k - 2)%nat))
       + x (k - 1)%nat * ((t k - t (k - 2)%nat) / ((t (k - 1)%nat - t (k - 2)%nat) * (t (k - 1)%nat - t k)))
       + x (k - 2)%nat * ((t k - t (k - 1)%nat) / ((t (k - 2)%nat - t (k - 1)%nat) * (t (k - 2)%nat - t k)))
  else (x k - x (k - 1)%nat) / (t k - t (k - 1)%nat).
(** sanity of the specification: the formulas differentiate quadratic (linear) functions exactly *)
Lemma difference_quadratic k (t : nat -> R) a b d : (2 <= k)%nat -> t (k - 2)%nat < t (k - 1)%nat -> t (k - 1)%nat < t k ->
  difference bdf_2 k t (fun j => quad a b d (t j)) = quad' a b d (t k).
Proof.
  intros H H1 H2. unfold difference, three_levels. destruct (Nat.leb_spec 2 k) as [_|?]; [|lia]. cbn [scheme_eqb andb]. unfold quad, quad'.
  set (t2 := t k) in *; set (t1 := t (k - 1)%nat) in *; set (t0 := t (k - 2)%nat) in *; clearbody t0 t1 t2. field. lra.
Qed.
Lemma difference_linear sch k (t : nat -> R) a b : (1 <= k)%nat -> ((2 <= k)%nat -> t (k - 2)%nat < t (k - 1)%nat) -> t (k - 1)%nat < t k ->
  difference sch k t (fun j => a + b * t j) = b.
Proof.
  intros H H1 H2. unfold difference, three_levels. destruct (scheme_eqb sch bdf_2); cbn [andb]; [destruct (Nat.leb_spec 2 k) as [L|L]|];
    [specialize (H1 L)| |]; set (t2 := t k) in *; set (t1 := t (k - 1)%nat) in *; try set (t0 := t (k - 2)%nat) in *; clearbody t1 t2; try clearbody t0; field; lra.
Qed.

Section Spec.
Context {point : Type}.
Variable pb : problem point.
(** the discrete fields at a quadrature point *)
Definition velocity_at (u : vec) (s : site) (d : nat) : R := sumn (pb_nu pb) (fun j => u j * st_phi s j d).
Definition gradient_at (u : vec) (s : site) (d e : nat) : R := sumn (pb_nu pb) (fun j => u j * st_dphi s j d e).
Definition pressure_at (p : vec) (s : site) : R := sumn (pb_np pb) (fun j => p j * st_psi s j).
Definition divergence_at (u : vec) (s : site) : R := sumn (pb_dim pb) (fun d => gradient_at u s d d).
Definition test_divergence (s : site) (i : nat) : R := sumn (pb_dim pb) (fun d => st_dphi s i d d).
Definition sym (g : nat -> nat -> R) (d e : nat) : R := (g d e + g e d) / 2.
(** (a . grad) u + beta (div a) u *)
Definition transport (a u : vec) (s : site) (d : nat) : R :=
  sumn (pb_dim pb) (fun e => velocity_at a s e * gradient_at u s d e) + fp_beta (pb_fp pb) * divergence_at a s * velocity_at u s d.
(** the force of the external pressure on the open boundary *)
Definition external_load (time : R) (i : nat) : R :=
  suml (pb_ofaces pb) (fun f => match pb_open pb (of_id f) with
    | Some p => sumn (of_n f) (fun a => if Nat.eqb (of_dof f a) i
                  then suml (of_pts f) (fun q => fq_JxW q * p time (fq_pos q) * sumn (pb_dim pb) (fun d => fq_phi q a d * fq_normal q d)) else 0)
    | None => 0 end).
(** weak form of the momentum equation tested with velocity shape function i: force minus inertia minus stress; [dudt] and [conv] are the
    time derivative and the convective term at the quadrature points *)
Definition momentum_defect (time : R) (dudt conv : site -> nat -> R) (force : vec) (x : field) (i : nat) : R :=
  force i - external_load time i - suml (pb_sites pb) (fun s => st_JxW s *
    (sumn (pb_dim pb) (fun d => (st_rho s * (dudt s d + conv s d) - st_damping s * velocity_at (fst x) s d) * st_phi s i d)
     + 2 * st_mu s * sumn (pb_dim pb) (fun d => sumn (pb_dim pb) (fun e => sym (gradient_at (fst x) s) d e * sym (st_dphi s i) d e))
     + (fp_tau_grad_div (pb_fp pb) * divergence_at (fst x) s - pressure_at (snd x) s) * test_divergence s i)).
(** weak form of the incompressibility condition tested with pressure shape function i *)
Definition continuity_defect (source : vec) (x : field) (i : nat) : R :=
  source i + if pb_con_p pb i then 0 else suml (pb_sites pb) (fun s => st_JxW s * (divergence_at (fst x) s * st_psi s i)).
Definition dirichlet_dof (i : nat) : bool := on_dirichlet (pb_conditions pb) (pb_faces pb) i.
(** weighted means of the pressure equations are removed (C26) *)
Definition without_mean (m : option mode) (v : vec) : vec :=
  match m with None => v | Some m => fun i => v i - mode_inverse m * sumn (pb_np pb) (fun j => mode_weights m j * v j) * mode_vector m i end.
Definition without_means (v : vec) : vec := without_mean (pb_m1 pb) (without_mean (pb_m0 pb) v).
(** linear extrapolation of the velocity in time, from the third step on *)
Definition predicted (k : nat) (t : nat -> R) (x : nat -> field) : vec := fun i =>
  if (3 <=? k)%nat then fst (x (k - 1)%nat) i + (fst (x (k - 1)%nat) i - fst (x (k - 2)%nat) i) * ((t k - t (k - 1)%nat) / (t (k - 1)%nat - t (k - 2)%nat))
  else fst (x (k - 1)%nat) i.
(** the convective term of the selected formulation *)
Definition convective (k : nat) (t : nat -> R) (x : nat -> field) : site -> nat -> R :=
  match fp_linearization (pb_fp pb) with
  | coupled_implicit_newton | coupled_implicit_picard => transport (fst (x k)) (fst (x k))
  | coupled_velocity_semi_implicit | projection => transport (predicted k t x) (fst (x k))
  | coupled_velocity_explicit => transport (predicted k t x) (predicted k t x)
  end.
(** the time derivative; [delta] is the relative change of the leading weight that the clock ignores *)
Definition derivative (sch : scheme) (k : nat) (t : nat -> R) (x : nat -> field) (delta : R) (s : site) (d : nat) : R :=
  difference sch k t (fun j => velocity_at (fst (x j)) s d) + delta * lead sch k t * velocity_at (fst (x k)) s d.
(** Euclidean norm of both defects; at prescribed velocity unknowns nothing is tested, only the user's force is left there *)
Definition defect_norm (time : R) (dudt conv : site -> nat -> R) (user x : field) : R :=
  sqrt (sumn (pb_nu pb) (fun i => (if dirichlet_dof i then fst user i else momentum_defect time dudt conv (fst user) x i) ^ 2)
        + sumn (pb_np pb) (fun i => without_means (continuity_defect (snd user) x) i ^ 2)).
(** a constant pressure does not act on velocities that are zero on the Dirichlet boundary (needed when the pressure is shifted, i.e. without
    open boundary) *)
Definition shift_is_force_free : Prop := forall m, pb_fix pb = true -> pb_m0 pb = Some m ->
  forall i, dirichlet_dof i = false -> suml (pb_sites pb) (fun s => st_JxW s * (pressure_at (mode_vector m) s * test_divergence s i)) = 0.
End Spec.

(** ** The weights of the clock *)
Lemma no_requests n : plain (N:=RNum) (repeat Next n) /\ positive_requests (repeat Next n).
Proof.
  induction n as [|n [IH1 IH2]]; [split; [reflexivity|constructor]|]. cbn [repeat]. split.
  - unfold plain in *. cbn. exact IH1.
  - constructor; [exact I|exact IH2].
Qed.
Lemma number_of_nexts n : number_of_next (N:=RNum) (repeat Next n) = n.
Proof. induction n as [|n IH]; cbn; auto. Qed.
Lemma legal_nexts n (c : clock RNum) : (forall j, (j < n)%nat -> at_end (next_n j c) = false) -> legal c (repeat Next n).
Proof.
  revert c. induction n as [|n IH]; intros c H; [exact I|]. cbn [repeat legal apply_op]. split; [intros _; apply (H O); lia|].
  apply IH. intros j Hj. apply (H (S j)). lia.
Qed.
Lemma good_nexts p n : well_posed p -> (forall j, (j < n)%nat -> at_end (next_n j (ts_init p)) = false) -> good p n (next_n n (ts_init p)).
Proof.
  intros W H. destruct (no_requests n) as [A B]. assert (G := good_run p (repeat Next n) W A B (legal_nexts n _ H)).
  rewrite number_of_nexts in G. rewrite next_n_run. exact G.
Qed.
Lemma times_increase p n : well_posed p -> (forall j, (j < S n)%nat -> at_end (next_n j (ts_init p)) = false) ->
  now (next_n n (ts_init p)) < now (next_n (S n) (ts_init p)).
Proof.
  intros W H. assert (G := good_nexts p n W (fun j Hj => H j ltac:(lia))). rewrite next_n_S.
  destruct (good_next _ _ _ G (H n ltac:(lia))) as [_ P]. assert (X := next_step_diff (next_n n (ts_init p))). rnum. lra.
Qed.
Lemma weights_any p n : well_posed p ->
  (forall j, (j < S n)%nat -> at_end (next_n j (ts_init p)) = false) ->
  let t j := now (next_n j (ts_init p)) in let c := next_n (S n) (ts_init p) in
  exists delta, Rabs delta <= / 1000000000000 /\ (forall y yoo, ((1 <= n)%nat -> yoo = y (n - 1)%nat) ->
    weight c * y (S n) + weight_old c * y n + weight_old_old c * yoo = difference (tp_scheme p) (S n) t y + delta * lead (tp_scheme p) (S n) t * y (S n)).
Proof.
  intros W H t c.
  assert (Inc : t n < t (S n)) by (apply times_increase; assumption).
  assert (G := good_nexts p n W (fun j Hj => H j ltac:(lia))).
  destruct (good_next _ _ _ G (H n ltac:(lia))) as [G1 P1].
  assert (D := next_step_diff (next_n n (ts_init p))). rewrite <- next_n_S in D, P1.
  assert (Ec : c = next (next_n n (ts_init p))) by (unfold c; apply next_n_S).
  assert (D' : step_size c = t (S n) - t n) by (unfold c, t; rewrite D; reflexivity). clear D.
  assert (Close : forall w, 0 < w -> Rabs (weight c - w) <= w / 1000000000000 -> exists delta, Rabs delta <= / 1000000000000 /\ weight c = w + delta * w).
  { intros w Pw B. exists ((weight c - w) / w). split; [|cut (forall a : R, a = w + (a - w) / w * w); [intros K; apply K|intros; field; lra]].
    unfold Rdiv at 1. rewrite Rabs_mult, (Rabs_right (/ w)) by (left; apply Rinv_0_lt_compat; exact Pw).
    apply Rmult_le_reg_r with w; [exact Pw|]. rewrite Rmult_assoc, Rinv_l by lra. lra. }
  destruct (three_levels (tp_scheme p) (S n)) eqn:T.
  - unfold three_levels in T. apply andb_true_iff in T as [T1 T2]. apply Nat.leb_le in T2.
    assert (Hs : tp_scheme p = bdf_2) by (destruct (tp_scheme p); try discriminate T1; reflexivity).
    destruct n as [|n]; [lia|]. assert (Inc0 : t n < t (S n)) by (apply times_increase; [assumption|intros; apply H; lia]).
    destruct (no_requests n) as [A B].
    assert (L : legal (ts_init p) (repeat Next n ++ [Next; Next])).
    { change [Next; Next] with (repeat (@Next RNum) 2). rewrite <- repeat_app. apply legal_nexts. intros j Hj. apply H. lia. }
    destruct (bdf2_history p (repeat Next n) Hs W A B L) as (w & Pw & Q & C & _). rewrite <- next_n_run, <- !next_n_S in Q, C.
    fold c in Q, C. change (now (next_n n (ts_init p))) with (t n) in Q. change (now (next_n (S n) (ts_init p))) with (t (S n)) in Q.
    change (now c) with (t (S (S n))) in Q. destruct (Close w Pw C) as (delta & Hd & Ew). exists delta. split; [exact Hd|]. intros y yoo Hy.
    rewrite (Hy ltac:(lia)). replace (S n - 1)%nat with n by lia. rewrite Ew.
    unfold difference, lead, three_levels. rewrite Hs. cbn [scheme_eqb andb Nat.leb]. replace (S (S n) - 1)%nat with (S n) by lia. replace (S (S n) - 2)%nat with n by lia.
    set (wo := weight_old c) in *. set (woo := weight_old_old c) in *. set (t2 := t (S (S n))) in *. set (t1 := t (S n)) in *. set (t0 := t n) in *.
    clearbody wo woo t0 t1 t2. clear - Q Inc Inc0. revert Q. cut (forall wo woo : R, (forall a b d : R, w * quad a b d t2 + wo * quad a b d t1 + woo * quad a b d t0 = quad' a b d t2) ->
      (w + delta * w) * y (S (S n)) + wo * y (S n) + woo * y n =
      y (S (S n)) * (1 / (t2 - t1) + 1 / (t2 - t0)) + y (S n) * ((t2 - t0) / ((t1 - t0) * (t1 - t2))) + y n * ((t2 - t1) / ((t0 - t1) * (t0 - t2)))
      + delta * (1 / (t2 - t1) + 1 / (t2 - t0)) * y (S (S n))); [intros K; apply K|]. clear wo woo. intros wo woo Q.
    (* Lagrange polynomials *)
    assert (Q2 := Q (t0 * t1) (- (t0 + t1)) 1). assert (Q1 := Q (t0 * t2) (- (t0 + t2)) 1). assert (Q0 := Q (t1 * t2) (- (t1 + t2)) 1).
    unfold quad, quad' in Q0, Q1, Q2.
    assert (E2 : w = 1 / (t2 - t1) + 1 / (t2 - t0)).
    { apply Rmult_eq_reg_r with ((t2 - t0) * (t2 - t1)); [|apply Rmult_integral_contrapositive_currified; lra].
      replace (w * ((t2 - t0) * (t2 - t1))) with (- (t0 + t1) + 2 * 1 * t2) by (rewrite <- Q2; ring). field. lra. }
    assert (E1 : wo = (t2 - t0) / ((t1 - t0) * (t1 - t2))).
    { apply Rmult_eq_reg_r with ((t1 - t0) * (t1 - t2)); [|apply Rmult_integral_contrapositive_currified; lra].
      replace (wo * ((t1 - t0) * (t1 - t2))) with (- (t0 + t2) + 2 * 1 * t2) by (rewrite <- Q1; ring). field. lra. }
    assert (E0 : woo = (t2 - t1) / ((t0 - t1) * (t0 - t2))).
    { apply Rmult_eq_reg_r with ((t0 - t1) * (t0 - t2)); [|apply Rmult_integral_contrapositive_currified; lra].
      replace (woo * ((t0 - t1) * (t0 - t2))) with (- (t1 + t2) + 2 * 1 * t2) by (rewrite <- Q0; ring). field. lra. }
    rewrite E1, E0, <- E2. ring.
  - assert (U : next_uses_bdf (next_n n (ts_init p)) = false).
    { unfold next_uses_bdf. rewrite (g_scheme _ _ _ G). unfold three_levels in T. destruct (scheme_eqb (tp_scheme p) bdf_2); [|reflexivity]. cbn [andb] in T |- *.
      apply Nat.leb_gt in T. assert (n = 0)%nat as -> by lia. cbn. unfold not_at_start. cbn. destruct (Reqb_spec (tp_start p) (tp_start p)); [reflexivity|congruence]. }
    assert (Woo : weight_old_old c = 0).
    { rewrite Ec. unfold weight_old_old; cbn [next weight_old_old_val]. unfold next_weight_old_old. rewrite U. apply (g_woo _ _ _ G).
      unfold three_levels in T. destruct (scheme_eqb (tp_scheme p) bdf_2) eqn:Eb; [left|right; intros Hs; rewrite Hs in Eb; discriminate Eb].
      apply (g_zero _ _ _ G). cbn in T. destruct n; [reflexivity|discriminate T]. }
    assert (P2 : 0 < step_size (next (next_n n (ts_init p)))) by (rewrite <- next_n_S; exact P1).
    destruct (first_step_weights (next_n n (ts_init p)) U P2) as (w & Pw & Q & C & _). rewrite <- next_n_S in Q, C. fold c in Q, C.
    change (now (next_n n (ts_init p))) with (t n) in Q. change (now c) with (t (S n)) in Q.
    destruct (Close w Pw C) as (delta & Hd & Ew). exists delta. split; [exact Hd|]. intros y yoo _. rewrite Woo, Ew.
    unfold difference, lead. rewrite T. replace (S n - 1)%nat with n by lia.
    set (wo := weight_old c) in *. set (t1 := t (S n)) in *. set (t0 := t n) in *. clearbody wo t0 t1. clear - Q Inc. revert Q.
    cut (forall wo : R, (forall a b : R, w * (a + b * t1) + wo * (a + b * t0) = b) -> (w + delta * w) * y (S n) + wo * y n + 0 * yoo = (y (S n) - y n) / (t1 - t0) + delta * (1 / (t1 - t0) + 0) * y (S n)); [intros K; apply K|].
    clear wo. intros wo Q. assert (Q1 := Q (- t0) 1). assert (Q0 := Q (- t1) 1).
    assert (E1 : w = 1 / (t1 - t0)) by (apply Rmult_eq_reg_r with (t1 - t0); [|lra]; replace (w * (t1 - t0)) with 1 by (rewrite <- Q1; ring); field; lra).
    assert (E0 : wo = - (1 / (t1 - t0))) by (apply Rmult_eq_reg_r with (t1 - t0); [|lra]; replace (wo * (t1 - t0)) with (- (1)) by lra; field; lra).
    rewrite E1, E0. field. lra.
Qed.
Lemma weights_at p n : well_posed p -> (tp_scheme p = bdf_2 \/ tp_scheme p = implicit_euler) ->
  (forall j, (j < S n)%nat -> at_end (next_n j (ts_init p)) = false) ->
  let t j := now (next_n j (ts_init p)) in let c := next_n (S n) (ts_init p) in
  exists delta, Rabs delta <= / 1000000000000 /\ (forall y yoo, ((1 <= n)%nat -> yoo = y (n - 1)%nat) ->
    weight c * y (S n) + weight_old c * y n + weight_old_old c * yoo = difference (tp_scheme p) (S n) t y + delta * lead (tp_scheme p) (S n) t * y (S n)).
Proof. intros W _. apply weights_any. exact W. Qed.

(** ** The pieces of a time step *)
Section Step.
Context {point : Type}.
Variable pb : problem point.
Variable env : nat -> environment.
Variable s0 : state.
Notation rn k := (run_steps pb env k s0).
Lemma clock_run k : r_clock (rn k) = next_n k (r_clock s0).
Proof. induction k as [|k IH]; [reflexivity|]. rewrite next_n_S, <- IH. reflexivity. Qed.
Lemma old_run k : r_old (rn (S k)) = r_sol (rn k).
Proof. reflexivity. Qed.
Lemma oo_run k : r_oo (rn (S (S k))) = r_sol (rn k).
Proof. reflexivity. Qed.

Lemma const_rhs_load time i : const_rhs_at pb time i = if dirichlet_dof pb i then 0 else external_load pb time i.
Proof.
  unfold const_rhs_at, const_rhs, external_load. destruct (dirichlet_dof pb i) eqn:D; rewrite Rplus_0_l.
  - apply suml_zero. intros f _. destruct (pb_open pb (of_id f)); [|reflexivity]. unfold face_rhs. apply sumn_zero. intros a _. set (h := of_dof f a).
    unfold expand, constraints_u, no_hanging. destruct (on_dirichlet (pb_conditions pb) (pb_faces pb) h) eqn:E; [reflexivity|]. cbn [suml fst snd].
    destruct (Nat.eqb_spec h i) as [Hh|]; [|ring]. unfold dirichlet_dof in D. rewrite Hh in E. congruence.
  - apply suml_ext. intros f _. destruct (pb_open pb (of_id f)) as [p|]; [|reflexivity]. unfold face_rhs. apply sumn_ext. intros a _. set (h := of_dof f a).
    unfold expand, constraints_u, no_hanging. destruct (on_dirichlet (pb_conditions pb) (pb_faces pb) h) eqn:E.
    + cbn [suml]. destruct (Nat.eqb_spec h i) as [Hh|]; [|reflexivity]. unfold dirichlet_dof in D. rewrite Hh in E. congruence.
    + cbn [suml fst snd]. destruct (Nat.eqb_spec h i) as [Hh|]; [|ring]. rewrite Rmult_1_l, Rplus_0_r. unfold cell_rhs. apply suml_ext. intros q _. ring.
Qed.

(** the convective term with a convecting velocity [a] *)
Definition convective_with (a u : vec) : site -> nat -> R :=
  match fp_linearization (pb_fp pb) with
  | coupled_implicit_newton | coupled_implicit_picard => transport pb u u
  | coupled_velocity_semi_implicit | projection => transport pb a u
  | coupled_velocity_explicit => transport pb a a
  end.
Definition weighted (c : clock RNum) (u old oo : vec) (s : site) (d : nat) : R :=
  weight c * velocity_at pb u s d + weight_old c * velocity_at pb old s d + weight_old_old c * velocity_at pb oo s d.
Definition convecting (c : clock RNum) (old oo : vec) : vec := fun i => extrapolate (N:=RNum) c (old i) (oo i).
Lemma velocity_lin (u v : vec) (a b : R) s d :
  velocity_at pb (fun i => u i * a + v i * b) s d = velocity_at pb u s d * a + velocity_at pb v s d * b.
Proof. unfold velocity_at. rewrite <- !sumn_scal_r, <- sumn_plus. apply sumn_ext. intros; ring. Qed.
Lemma gradient_lin (u v : vec) (a b : R) s d e :
  gradient_at pb (fun i => u i * a + v i * b) s d e = gradient_at pb u s d e * a + gradient_at pb v s d e * b.
Proof. unfold gradient_at. rewrite <- !sumn_scal_r, <- sumn_plus. apply sumn_ext. intros; ring. Qed.

Lemma system_rhs_form (c : clock RNum) (user old oo x : field) :
  tau1 c = 1 -> fp_physical_type (pb_fp pb) = incompressible -> is_proj (fp_linearization (pb_fp pb)) = false ->
  let r := fst (system_rhs pb c user old oo x) in
  (forall i, fst r i = if dirichlet_dof pb i then fst user i
                       else momentum_defect pb (now c) (weighted c (fst x) (fst old) (fst oo)) (convective_with (convecting c (fst old) (fst oo)) (fst x)) (fst user) x i) /\
  (forall i, snd r i = without_means pb (continuity_defect pb (snd user) x) i).
Proof.
  intros Ht Hi Hp r. unfold r, system_rhs. clear r.
  match goal with |- context [residual ?s ?m0 ?m1 ?pts ?cu ?cp ?fu ?fp ?U ?P] =>
    destruct (residual s m0 m1 pts cu cp fu fp U P) as [[ru rp] pts'] eqn:E; destruct (C55_residual_weak_form s m0 m1 pts cu cp fu fp U P ru rp pts' E) as (A & B & C) end.
  clear E. cbn [fst snd]. split; intros i.
  - destruct (dirichlet_dof pb i) eqn:D.
    + rewrite (B i D), const_rhs_load, D. ring.
    + rewrite (A i D), const_rhs_load, D. unfold momentum_defect. f_equal. rewrite map_map, suml_map. cbn [fst]. apply suml_ext. intros s _.
      cbn [s_type setting_at]. rewrite Hi. cbn [is_stokes_type JxW point_at]. f_equal. unfold stress_form. cbn [s_tau1 setting_at dim]. rewrite Ht, Rmult_1_r.
      cbn [mu dphi tau_grad_div point_at].
      rewrite Rplus_assoc. f_equal; [|f_equal].
      * apply sumn_ext. intros d _. cbn [rho damping phi point_at]. f_equal. f_equal. f_equal.
        unfold inertia. cbn [s_type s_lin s_tau1 setting_at]. rewrite Hi, Ht, Rmult_1_l. f_equal.
        unfold convective_with. 
        assert (Ev : forall d, old_value (point_at pb (fst old) (fst oo) s) d * factor_extrapol_old c + old_old_value (point_at pb (fst old) (fst oo) s) d * factor_extrapol_old_old c
                     = velocity_at pb (convecting c (fst old) (fst oo)) s d).
        { intros d0. unfold convecting, extrapolate. symmetry. exact (velocity_lin (fst old) (fst oo) (factor_extrapol_old c) (factor_extrapol_old_old c) s d0). }
        assert (Eg : forall d e, old_gradient (point_at pb (fst old) (fst oo) s) d e * factor_extrapol_old c + old_old_gradient (point_at pb (fst old) (fst oo) s) d e * factor_extrapol_old_old c
                     = gradient_at pb (convecting c (fst old) (fst oo)) s d e).
        { intros d0 e0. unfold convecting, extrapolate. symmetry. exact (gradient_lin (fst old) (fst oo) (factor_extrapol_old c) (factor_extrapol_old_old c) s d0 e0). }
        unfold convection, transport, divergence_at, trace. cbn [dim beta extrapol_old extrapol_old_old setting_at].
        destruct (fp_linearization (pb_fp pb)); try discriminate Hp; rewrite Rplus_comm;
          first [reflexivity|apply f_equal2; [apply sumn_ext; intros e _; rewrite Ev, ?Eg; reflexivity|apply f_equal2; [apply f_equal2; [reflexivity|apply sumn_ext; intros e _; apply Eg]|first [reflexivity|apply Ev]]]].
      * unfold contract. f_equal. apply sumn_ext. intros d _. apply sumn_ext. intros e _. unfold eps_sym, sym, eval_gradient, gradient_at. cbn. field.
  - rewrite C. unfold average_projection, without_means. cbn [s_lin s_type n_p setting_at]. rewrite Hp, Hi. cbn [negb andb is_stationary_type].
    assert (Em : forall m v j, project_mode (pb_np pb) m v j = without_mean pb m v j).
    { intros [m|] v j; [|reflexivity]. cbn. unfold dot. ring. }
    assert (Ec : (fun j => snd user j - 0 - (if constrained_p (setting_at pb c) j || false then 0 else
        suml (map fst (map (fun s => (point_at pb (fst old) (fst oo) s, nothing_stored)) (pb_sites pb))) (fun q => JxW q * (- trace (pb_dim pb) (eval_gradient (setting_at pb c) q (fst x)) * psi q j))))
       = continuity_defect pb (snd user) x).
    { apply functional_extensionality. intros j. unfold continuity_defect. rewrite orb_false_r. cbn [constrained_p setting_at]. destruct (pb_con_p pb j); [ring|].
      rewrite map_map, suml_map. cbn [fst]. unfold Rminus. rewrite Ropp_0, Rplus_0_r. f_equal.
      rewrite <- (Rmult_1_l (suml _ _)), <- Ropp_mult_distr_l_reverse, <- suml_scal. apply suml_ext. intros s _. cbn. unfold divergence_at, trace, gradient_at, eval_gradient. cbn. ring. }
    rewrite Em. f_equal. transitivity (project_mode (pb_np pb) (pb_m0 pb) (continuity_defect pb (snd user) x)); [rewrite <- Ec; reflexivity|].
    apply functional_extensionality. intros j. apply Em.
Qed.
End Step.

(** ** The nonlinear loop *)
Section Loop.
Context {V : Type} (vadd : V -> V -> V) (vzero : V) (o : oracles (N:=RNum) V) (fp : flow_params RNum) (ps : prec_state) (sn : Z).
Notation loop fuel s := (nl_loop (N:=RNum) V vadd vzero fuel o fp ps sn s).
Lemma loop_invariant (P : V -> Prop) : is_projection (fp_linearization fp) = false ->
  (forall x y, P x -> P (vadd x (o_distribute V o y))) ->
  forall fuel s, P (ls_solution V s) -> P (ls_solution V (loop fuel s)).
Proof.
  intros Hp HP. assert (U : forall x tol call, P x -> P (vadd x (l_update V (solve_system (N:=RNum) V vzero o fp tol call)))).
  { intros x tol call Hx. unfold solve_system. rewrite Hp. cbv zeta. destruct (k_converged V _); [apply HP, Hx|]. destruct (Z.ltb _ _); apply HP, Hx. }
  induction fuel as [|fuel IH]; intros s Hs; [exact Hs|]. cbn [nl_loop]. cbv zeta. destruct (negb _); [cbn [ls_solution]; apply U, Hs|].
  destruct (nltb _ _); [cbn [ls_solution]; apply U, Hs|]. apply IH. cbn [ls_solution]. apply U, Hs.
Qed.
Lemma loop_implicit : is_implicit (fp_linearization fp) = true -> forall fuel s, (0 < fuel)%nat ->
  let s' := loop fuel s in ls_res V s' = o_residual V o (ls_solution V s') /\
  (if nltb (n:=RNum) (ls_res V s') (fp_tol_nl_iteration fp) then (ls_step V s <= ls_step V s' < ls_step V s + Z.of_nat fuel)%Z else ls_step V s' = (ls_step V s + Z.of_nat fuel)%Z).
Proof.
  intros Hi. induction fuel as [|fuel IH]; intros s Hf; [lia|]. cbn [nl_loop]. cbv zeta. rewrite Hi. cbn [negb].
  destruct (nltb (n:=RNum) (o_residual V o _) _) eqn:E.
  - cbn [ls_res ls_solution ls_step]. split; [reflexivity|]. rewrite E. lia.
  - destruct fuel as [|fuel].
    + cbn [nl_loop ls_res ls_solution ls_step]. split; [reflexivity|]. rewrite E. lia.
    + match goal with |- context [nl_loop V vadd vzero (Datatypes.S fuel) o fp ps sn ?s1] => specialize (IH s1 ltac:(lia)); set (s2 := s1) in *; assert (E2 : ls_step V s2 = (ls_step V s + 1)%Z) by reflexivity; clearbody s2 end.
      cbv zeta in IH. destruct IH as [A B]. split; [exact A|]. rewrite E2 in B. destruct (nltb _ _); lia.
Qed.
Lemma loop_linearized : is_implicit (fp_linearization fp) = false -> forall fuel s, (0 < fuel)%nat ->
  ls_step V (loop fuel s) = ls_step V s /\
  ls_solution V (loop fuel s) = vadd (ls_solution V s) (l_update V (solve_system (N:=RNum) V vzero o fp (linear_tolerance fp (ls_res V s)) (Z.to_nat (ls_step V s)))).
Proof. intros Hi [|fuel] s H; [lia|]. cbn [nl_loop]. cbv zeta. rewrite Hi. split; reflexivity. Qed.
End Loop.

Section Main.
Context {point : Type}.
Variable pb : problem point.
Lemma norm_of_parts (r : field) : residual_norm pb r = sqrt (sumn (pb_nu pb) (fun i => fst r i ^ 2) + sumn (pb_np pb) (fun i => snd r i ^ 2)).
Proof.
  unfold residual_norm, l2_norm. assert (Q : forall n (v : vec), sumn n (fun i => v i * v i) = sumn n (fun i => v i ^ 2)) by (intros; apply sumn_ext; intros; ring).
  rewrite !Q. rewrite !sqrt_sqrt; [reflexivity| |]; apply sumn_nonneg; intros; apply pow2_ge_0.
Qed.
Lemma residual_is_defect (c : clock RNum) (user old oo x : field) :
  tau1 c = 1 -> fp_physical_type (pb_fp pb) = incompressible -> is_proj (fp_linearization (pb_fp pb)) = false ->
  compute_residual pb c user old oo x =
  defect_norm pb (now c) (weighted pb c (fst x) (fst old) (fst oo)) (convective_with pb (convecting c (fst old) (fst oo)) (fst x)) user x.
Proof.
  intros Ht Hi Hp. destruct (system_rhs_form pb c user old oo x Ht Hi Hp) as [A B]. unfold compute_residual. rewrite norm_of_parts. unfold defect_norm.
  f_equal. f_equal; apply sumn_ext; intros i _; f_equal; [apply A|apply B].
Qed.
(** the pressure shift does not change the defect *)
Lemma momentum_shift amount time dudt conv force (x : field) i : shift_is_force_free pb -> dirichlet_dof pb i = false ->
  momentum_defect pb time dudt conv force (shift_pressure pb amount x) i = momentum_defect pb time dudt conv force x i.
Proof.
  intros F D. unfold shift_pressure. destruct (pb_fix pb) eqn:Ef; [|reflexivity]. destruct (pb_m0 pb) as [m|] eqn:Em; [|reflexivity].
  assert (Z := F m Ef Em i D). unfold momentum_defect. cbn [fst snd]. f_equal.
  match goal with |- suml ?l ?f = suml ?l ?g => transitivity (suml l (fun s => g s + (- amount x) * (st_JxW s * (pressure_at pb (mode_vector m) s * test_divergence pb s i)))) end.
  - apply suml_ext. intros s _.
    assert (P : pressure_at pb (fun j => snd x j + amount x * mode_vector m j) s = pressure_at pb (snd x) s + amount x * pressure_at pb (mode_vector m) s).
    { unfold pressure_at. rewrite <- sumn_scal, <- sumn_plus. apply sumn_ext. intros; ring. }
    rewrite P. ring.
  - rewrite suml_plus, suml_scal, Z. ring.
Qed.
Lemma shift_velocity amount (x : field) : fst (shift_pressure pb amount x) = fst x.
Proof. unfold shift_pressure. destruct (pb_fix pb); [|reflexivity]. destruct (pb_m0 pb); reflexivity. Qed.
Lemma defect_shift amount time dudt conv user (x : field) : shift_is_force_free pb ->
  defect_norm pb time dudt conv user (shift_pressure pb amount x) = defect_norm pb time dudt conv user x.
Proof.
  intros F. unfold defect_norm. f_equal. f_equal; apply sumn_ext; intros i _; f_equal.
  - destruct (dirichlet_dof pb i) eqn:D; [reflexivity|]. apply momentum_shift; assumption.
  - assert (E : continuity_defect pb (snd user) (shift_pressure pb amount x) = continuity_defect pb (snd user) x); [|rewrite E; reflexivity].
    apply functional_extensionality. intros j. unfold continuity_defect. rewrite shift_velocity. reflexivity.
Qed.
(** boundary values *)
Lemma boundary_step e (s : state) i v : is_projection (fp_linearization (pb_fp pb)) = false ->
  prescribed (pb_conditions pb) (now (next (r_clock s))) (pb_faces pb) i v ->
  fst (r_sol (fst (advance_time_step pb e s))) i = v.
Proof.
  intros Hp Hv. unfold advance_time_step, evaluate_time_step, solve_nonlinear_system. cbn [fst r_sol r_solution]. rewrite shift_velocity.
  apply (loop_invariant field_add field_zero _ (pb_fp pb) _ _ (fun x : field => fst x i = v)); [exact Hp| |].
  - intros x y Hx. cbn [field_add fst o_distribute oracles_at distribute_update]. rewrite Hx.
    rewrite (update_dirichlet _ _ _ _ i eq_refl (prescribed_on_dirichlet _ _ _ _ _ Hv)). ring.
  - cbn [ls_solution init_time_advance r_sol r_clock fst]. unfold apply_boundary_conditions_u, distribute, no_hanging.
    rewrite (boundary_values_prescribed _ _ _ _ _ Hv). reflexivity.
Qed.
(** one time step of a fully implicit formulation *)
Lemma implicit_step e (s : state) : is_implicit (fp_linearization (pb_fp pb)) = true -> fp_physical_type (pb_fp pb) = incompressible ->
  (0 < fp_max_nl_iteration (pb_fp pb) < 4294967296)%Z -> shift_is_force_free pb -> tau1 (next (r_clock s)) = 1 ->
  let c := next (r_clock s) in let x := r_sol (fst (advance_time_step pb e s)) in
  snd (advance_time_step pb e s) <> (0, 0)%Z <->
  defect_norm pb (now c) (weighted pb c (fst x) (fst (r_sol s)) (fst (r_old s))) (convective_with pb (convecting c (fst (r_sol s)) (fst (r_old s))) (fst x)) (e_user e) x
    < fp_tol_nl_iteration (pb_fp pb).
Proof.
  intros Him Hty Hmax F Ht c x. assert (Hp : is_proj (fp_linearization (pb_fp pb)) = false) by (destruct (fp_linearization (pb_fp pb)); try discriminate Him; reflexivity).
  unfold x, advance_time_step, evaluate_time_step, solve_nonlinear_system. cbn [fst snd r_sol r_solution r_outcome].
  set (s1 := init_time_advance pb s). change (next (r_clock s)) with (r_clock s1) in c, Ht. change (r_sol s) with (r_old s1). change (r_old s) with (r_oo s1).
  match goal with |- context [nl_loop field field_add field_zero ?n ?o ?f ?q ?k ?l] =>
    destruct (loop_implicit field_add field_zero o f q k Him n l ltac:(lia)) as [A B]; set (s2 := nl_loop field field_add field_zero n o f q k l) in * end.
  cbn [ls_step] in B. rewrite Z2Nat.id in B by lia.
  assert (E : ls_res field s2 = defect_norm pb (now c) (weighted pb c (fst (ls_solution field s2)) (fst (r_old s1)) (fst (r_oo s1)))
      (convective_with pb (convecting c (fst (r_old s1)) (fst (r_oo s1))) (fst (ls_solution field s2))) (e_user e) (ls_solution field s2)).
  { rewrite A. cbn [oracles_at o_residual]. apply residual_is_defect; assumption. }
  clear A. rewrite shift_velocity, (defect_shift _ _ _ _ _ _ F), <- E. clear E.
  change (nltb (n:=RNum) (ls_res field s2) (fp_tol_nl_iteration (pb_fp pb))) with (Rltb (ls_res field s2) (fp_tol_nl_iteration (pb_fp pb))) in B.
  destruct (Rltb_spec (ls_res field s2) (fp_tol_nl_iteration (pb_fp pb))) as [L|L].
  - split; [intros _; exact L|intros _]. destruct (Z.ltb_spec (ls_step field s2) (fp_max_nl_iteration (pb_fp pb))) as [_|?]; [|lia].
    unfold u32. rewrite (Z.mod_small (ls_step field s2 + 1)) by lia. intros Q. inversion Q. lia.
  - split; [|intros H; contradiction]. destruct (Z.ltb_spec (ls_step field s2) (fp_max_nl_iteration (pb_fp pb))) as [?|_]; [lia|]. intros H. exfalso. apply H. reflexivity.
Qed.
End Main.

(** the convecting velocity of the linearized formulations *)
Lemma convecting_at p n (old oo : vec) (x : nat -> field) : well_posed p ->
  (forall j, (j < S n)%nat -> at_end (next_n j (ts_init p)) = false) -> (Z.of_nat n < 4294967296)%Z ->
  old = fst (x n) -> ((1 <= n)%nat -> oo = fst (x (n - 1)%nat)) ->
  convecting (next_n (S n) (ts_init p)) old oo = predicted (S n) (fun j => now (next_n j (ts_init p))) x.
Proof.
  intros W H Hn Ho Hoo. apply functional_extensionality. intros i. unfold convecting, predicted. replace (S n - 1)%nat with n by lia.
  assert (Sn : step_no (next_n n (ts_init p)) = Z.of_nat n).
  { rewrite next_n_run, step_no_run by (apply no_requests). rewrite number_of_nexts. apply Z.mod_small. lia. }
  destruct (Nat.leb_spec 3 (S n)) as [L|L].
  - destruct n as [|m]; [lia|]. destruct (no_requests m) as [A B].
    assert (Lg : legal (ts_init p) (repeat Next m ++ [Next; Next])).
    { change [Next; Next] with (repeat (@Next RNum) 2). rewrite <- repeat_app. apply legal_nexts. intros j Hj. apply H. lia. }
    destruct (extrapolation_history p (repeat Next m) W A B Lg) as (Q & _). rewrite <- next_n_run, <- !next_n_S in Q.
    specialize (Q ltac:(rewrite Sn; lia)).
    assert (Inc : now (next_n m (ts_init p)) < now (next_n (S m) (ts_init p))) by (apply times_increase; [assumption|intros; apply H; lia]).
    rewrite (Hoo ltac:(lia)), Ho. replace (S m - 1)%nat with m by lia. replace (S (S m) - 2)%nat with m by lia.
    set (t2 := now (next_n (S (S m)) (ts_init p))) in *. set (t1 := now (next_n (S m) (ts_init p))) in *. set (t0 := now (next_n m (ts_init p))) in *.
    unfold extrapolate in *. set (f1 := factor_extrapol_old (next_n (S (S m)) (ts_init p))) in *. set (f0 := factor_extrapol_old_old (next_n (S (S m)) (ts_init p))) in *.
    clearbody t0 t1 t2 f1 f0. rnum. clear - Q Inc. revert Q Inc. generalize (fst (x (S m)) i) (fst (x m) i).
    cut (forall f1 f0 t0 t1 t2 a b : R, (forall a b : R, (a + b * t1) * f1 + (a + b * t0) * f0 = a + b * t2) -> t0 < t1 -> a * f1 + b * f0 = a + (a - b) * ((t2 - t1) / (t1 - t0))).
    { intros K r r0 Q Inc. apply K; assumption. }
    clear. intros f1 f0 t0 t1 t2 a b Q Inc. assert (Q1 := Q (- t0) 1). assert (Q0 := Q (- t1) 1).
    assert (E1 : f1 = (t2 - t0) / (t1 - t0)) by (apply Rmult_eq_reg_r with (t1 - t0); [|lra]; transitivity (t2 - t0); [lra|field; lra]).
    assert (E0 : f0 = - ((t2 - t1) / (t1 - t0))) by (apply Rmult_eq_reg_r with (t1 - t0); [|lra]; transitivity (- (t2 - t1)); [lra|field; lra]).
    rewrite E1, E0. field. lra.
  - rewrite next_n_S, extrapolate_first by (rewrite Sn; lia). rewrite Ho. reflexivity.
Qed.

Section Theorems.
Context {point : Type}.
Variable pb : problem point.
Variable env : nat -> environment.
Variable s0 : state.
Variable p : ts_params RNum.
(** the fields and the times of the run *)
Notation x := (fun k => r_sol (run_steps pb env k s0)).
Notation t := (fun k => now (r_clock (run_steps pb env k s0))).

Lemma step_terms_any n : r_clock s0 = ts_init p -> well_posed p ->
  (forall j, (j < S n)%nat -> at_end (next_n j (ts_init p)) = false) ->
  (is_implicit (fp_linearization (pb_fp pb)) = true \/ (Z.of_nat n < 4294967296)%Z) ->
  let s := run_steps pb env n s0 in let c := r_clock (run_steps pb env (S n) s0) in
  exists delta, Rabs delta <= / 1000000000000 /\
    forall u, u = fst (x (S n)) -> weighted pb c u (fst (r_sol s)) (fst (r_old s)) = derivative pb (tp_scheme p) (S n) t x delta /\
    convective_with pb (convecting c (fst (r_sol s)) (fst (r_old s))) u = convective pb (S n) t x.
Proof.
  intros H0 W H Hlin s c.
  assert (Ec : forall k, r_clock (run_steps pb env k s0) = next_n k (ts_init p)) by (intros k; rewrite clock_run, H0; reflexivity).
  assert (Et : t = fun j => now (next_n j (ts_init p))) by (apply functional_extensionality; intros k; rewrite Ec; reflexivity).
  destruct (weights_any p n W H) as (delta & Hd & Q). exists delta. split; [exact Hd|]. intros u Hu. split.
  - apply functional_extensionality. intros st. apply functional_extensionality. intros d. unfold derivative. rewrite Et.
    specialize (Q (fun j => velocity_at pb (fst (x j)) st d) (velocity_at pb (fst (r_old s)) st d)).
    assert (Hn : (1 <= n)%nat -> velocity_at pb (fst (r_old s)) st d = velocity_at pb (fst (x (n - 1)%nat)) st d).
    { intros L. destruct n as [|m]; [lia|]. unfold s. rewrite old_run. replace (S m - 1)%nat with m by lia. reflexivity. }
    specialize (Q Hn). cbn beta in Q. rewrite <- Q. unfold weighted, c. rewrite Ec, Hu. reflexivity.
  - unfold convective_with, convective.
    assert (P : (Z.of_nat n < 4294967296)%Z -> convecting c (fst (r_sol s)) (fst (r_old s)) = predicted (S n) t x).
    { intros L. unfold c. rewrite Ec, Et. apply convecting_at; try assumption; [reflexivity|]. intros L1. destruct n as [|m]; [lia|]. unfold s. rewrite old_run.
      replace (S m - 1)%nat with m by lia. reflexivity. }
    destruct Hlin as [Hi|L].
    + destruct (fp_linearization (pb_fp pb)); try discriminate Hi; rewrite Hu; reflexivity.
    + rewrite (P L), Hu. reflexivity.
Qed.
Lemma step_terms n : r_clock s0 = ts_init p -> well_posed p -> (tp_scheme p = bdf_2 \/ tp_scheme p = implicit_euler) ->
  (forall j, (j < S n)%nat -> at_end (next_n j (ts_init p)) = false) ->
  (is_implicit (fp_linearization (pb_fp pb)) = true \/ (Z.of_nat n < 4294967296)%Z) ->
  let s := run_steps pb env n s0 in let c := r_clock (run_steps pb env (S n) s0) in
  tau1 c = 1 /\
  exists delta, Rabs delta <= / 1000000000000 /\
    forall u, u = fst (x (S n)) -> weighted pb c u (fst (r_sol s)) (fst (r_old s)) = derivative pb (tp_scheme p) (S n) t x delta /\
    convective_with pb (convecting c (fst (r_sol s)) (fst (r_old s))) u = convective pb (S n) t x.
Proof.
  intros H0 W Hs H Hlin s c. split; [|apply step_terms_any; assumption].
  unfold c. rewrite clock_run, H0, next_n_run. destruct (scheme_constants p (repeat Next (S n))) as (_ & K & _). apply K. destruct Hs; auto.
Qed.

(** A run of [while (!at_end()) advance_time_step();] with a fully implicit formulation: it ends, at the final time; the times increase; the
    boundary values of the new time are met; and a step reports success if and only if the returned fields fulfil the weak form of the
    Navier-Stokes equations, with the backward difference quotient of the computed fields as time derivative, up to the tolerance *)
Theorem C108_implicit_run :
  r_clock s0 = ts_init p -> well_posed p -> (tp_scheme p = bdf_2 \/ tp_scheme p = implicit_euler) ->
  fp_physical_type (pb_fp pb) = incompressible -> iterated (fp_linearization (pb_fp pb)) = true ->
  (0 < fp_max_nl_iteration (pb_fp pb) < 4294967296)%Z -> shift_is_force_free pb ->
  exists n, at_end (r_clock (run_steps pb env n s0)) = true /\ (forall k, (k < n)%nat -> at_end (r_clock (run_steps pb env k s0)) = false) /\
    INR n <= (tp_end p - tp_start p) / Rmin (tp_step_start p) (tp_step_max p) + 1 /\
    t 0%nat = tp_start p /\ t n = tp_end p /\
    forall k, (1 <= k <= n)%nat ->
      t (k - 1)%nat < t k /\
      (forall i v, prescribed (pb_conditions pb) (t k) (pb_faces pb) i v -> fst (x k) i = v) /\
      exists delta, Rabs delta <= / 1000000000000 /\
        (report pb env (k - 1) s0 <> (0, 0)%Z <->
         defect_norm pb (t k) (derivative pb (tp_scheme p) k t x delta) (convective pb k t x) (e_user (env (k - 1)%nat)) (x k) < fp_tol_nl_iteration (pb_fp pb)).
Proof.
  intros H0 W Hs Hty Hi Hmax F. rewrite <- iterated_is in Hi.
  assert (Ec : forall k, r_clock (run_steps pb env k s0) = next_n k (ts_init p)) by (intros k; rewrite clock_run, H0; reflexivity).
  destruct W as (W1 & W2 & W3 & W4). assert (W : well_posed p) by (repeat split; assumption).
  destruct (plain_loop_terminates p W1 W2 W4) as (n & Hn & He & Ht & Hk). exists n.
  rewrite !Ec. split; [exact He|]. split; [intros k L; rewrite Ec; apply Hk, L|]. split; [exact Hn|]. split; [reflexivity|]. split; [exact Ht|].
  intros k [K1 K2]. destruct k as [|k]; [lia|]. replace (S k - 1)%nat with k by lia.
  assert (Hj : forall j, (j < S k)%nat -> at_end (next_n j (ts_init p)) = false) by (intros; apply Hk; lia).
  split; [rewrite !Ec; apply times_increase; assumption|]. split.
  - intros i v Hv. apply (boundary_step pb (env k) (run_steps pb env k s0)); [destruct (fp_linearization (pb_fp pb)); try discriminate Hi; reflexivity|exact Hv].
  - destruct (step_terms k H0 W Hs Hj (or_introl Hi)) as (Ht1 & delta & Hd & E). exists delta. split; [exact Hd|].
    destruct (E _ eq_refl) as [E1 E2]. rewrite <- E1, <- E2. exact (implicit_step pb (env k) (run_steps pb env k s0) Hi Hty Hmax F Ht1).
Qed.
End Theorems.
Print Assumptions C108_implicit_run.

(** ** The linearized formulations *)
(** Krylov solvers that tell the truth: when they report convergence the residual of the linear system is at most the requested tolerance *)
Definition subtract (a b : field) : field := (fun i => fst a i - fst b i, fun i => snd a i - snd b i).
Definition honest {point} (pb : problem point) (e : environment) (s : state) (solver : Z -> R -> field -> nat -> krylov (N:=RNum) field) : Prop :=
  forall budget tol guess call, k_converged _ (solver budget tol guess call) = true ->
    residual_norm pb (subtract (fst (system_rhs pb (r_clock s) (e_user e) (r_old s) (r_oo s) (r_sol s)))
                               (system_matrix pb (r_clock s) (e_user e) (r_old s) (r_oo s) (r_sol s) (k_iterate _ (solver budget tol guess call)))) <= tol.
(** the tolerance requested by the linearized formulations *)
Definition linear_bound (fp : flow_params RNum) : R := if fp_rel_lin_iteration fp then fp_tol_nl_iteration fp / 2 else fp_tol_lin_iteration fp.
(** honest solvers, the second of which reaches the requested tolerance; [s]: the state before advance_time_step *)
Definition reliable {point} (pb : problem point) (e : environment) (s : state) : Prop :=
  honest pb e (init_time_advance pb s) (e_cheap e) /\ honest pb e (init_time_advance pb s) (e_strong e) /\
  (forall budget guess call, k_converged _ (e_strong e budget (linear_bound (pb_fp pb)) guess call) = true) /\
  (fp_iterations_before_inner_solvers (pb_fp pb) < fp_max_lin_iteration (pb_fp pb))%Z.
(** as [defect_norm] but without the prescribed unknowns *)
Definition free_defect_norm {point} (pb : problem point) (time : R) (dudt conv : site -> nat -> R) (user x : field) : R :=
  sqrt (sumn (pb_nu pb) (fun i => if dirichlet_dof pb i then 0 else momentum_defect pb time dudt conv (fst user) x i ^ 2)
        + sumn (pb_np pb) (fun i => without_means pb (continuity_defect pb (snd user) x) i ^ 2)).
Definition linearized (l : linearization) : bool := match l with coupled_velocity_semi_implicit | coupled_velocity_explicit => true | _ => false end.

Section Linear.
Context {point : Type}.
Variable pb : problem point.
Lemma free_rows (c : clock RNum) user old oo (x d : field) : linearized (fp_linearization (pb_fp pb)) = true -> (forall i, pb_con_p pb i = false) ->
  let r := subtract (fst (system_rhs pb c user old oo x)) (system_matrix pb c user old oo x d) in
  let r2 := fst (system_rhs pb c user old oo (field_add x (distribute_update pb d))) in
  (forall i, dirichlet_dof pb i = false -> fst r2 i = fst r i) /\ (forall i, snd r2 i = snd r i).
Proof.
  intros Hl Hc r r2. unfold r, r2, system_matrix, system_rhs, subtract. clear r r2. set (st := setting_at pb c). set (D := distribute_update pb d).
  set (pts := map (fun s => (point_at pb (fst old) (fst oo) s, nothing_stored)) (pb_sites pb)).
  set (cu := const_rhs_at pb (now c)).
  destruct (residual st (pb_m0 pb) (pb_m1 pb) pts cu (fun _ => 0) (fst user) (snd user) (fst x) (snd x)) as [[ru rp] pts'] eqn:E1. cbn [fst snd].
  destruct (residual st (pb_m0 pb) (pb_m1 pb) pts cu (fun _ => 0) (fst user) (snd user) (fst (field_add x D)) (snd (field_add x D))) as [[ru2 rp2] pts2] eqn:E2. cbn [fst snd].
  destruct (vmult st (pb_m0 pb) (pb_m1 pb) pts' (fst D) (snd D)) as [du dp] eqn:E3.
  assert (ZD : zero_on (constrained_u st) (fst D)).
  { intros i Hi. unfold D. cbn [distribute_update fst]. apply update_dirichlet; [reflexivity|exact Hi]. }
  assert (ZE : zero_on (constrained_p st) (snd D)).
  { intros i Hi. cbn in Hi. rewrite Hc in Hi. discriminate Hi. }
  destruct (C24_residual_expansion st (pb_m0 pb) (pb_m1 pb) pts pts cu (fun _ => 0) (fst user) (snd user) (fst x) (snd x) (fst D) (snd D) ZD ZE eq_refl
              ru rp pts' du dp ru2 rp2 pts2 E1 E3 E2) as [A B].
  assert (Mu : masked (constrained_u st) (fst D) = masked (constrained_u st) (fst d)).
  { apply functional_extensionality. intros i. unfold masked. destruct (constrained_u st i) eqn:Ci; [reflexivity|]. unfold D. cbn [distribute_update fst].
    unfold distribute, constraints_u, no_hanging. cbn in Ci. unfold pb_con_u in Ci. rewrite Ci. reflexivity. }
  assert (Ed : snd D = snd d).
  { apply functional_extensionality. intros i. unfold D. cbn [distribute_update snd]. unfold masked. rewrite Hc. reflexivity. }
  assert (V : (forall i, dirichlet_dof pb i = false -> fst (vmult st (pb_m0 pb) (pb_m1 pb) pts' (fst d) (snd d)) i = du i) /\
              (forall i, snd (vmult st (pb_m0 pb) (pb_m1 pb) pts' (fst d) (snd d)) i = dp i)).
  { rewrite <- Ed. assert (E4 : du = fst (vmult st (pb_m0 pb) (pb_m1 pb) pts' (fst D) (snd D))) by (rewrite E3; reflexivity).
    assert (E5 : dp = snd (vmult st (pb_m0 pb) (pb_m1 pb) pts' (fst D) (snd D))) by (rewrite E3; reflexivity).
    rewrite E4, E5. unfold vmult. rewrite Mu. cbn [fst snd]. split; [|reflexivity].
    intros i Hi. destruct (constrained_u st i) eqn:Ci; [|reflexivity]. change (constrained_u st i) with (dirichlet_dof pb i) in Ci. congruence. }
  destruct V as [V1 V2]. split; intros i.
  - intros Hi. rewrite A, (V1 i Hi). assert (remainder st (map fst pts) (fst x) (fst D) i = 0) as ->; [|ring].
    unfold remainder. cbn [st setting_at s_type s_lin]. destruct (constrained_u st i); [reflexivity|]. destruct (is_stokes_type _); [reflexivity|].
    unfold st; cbn [setting_at s_lin]. destruct (fp_linearization (pb_fp pb)); try discriminate Hl; reflexivity.
  - rewrite B, V2. reflexivity.
Qed.
Lemma linear_step e (s : state) : linearized (fp_linearization (pb_fp pb)) = true -> fp_physical_type (pb_fp pb) = incompressible ->
  (0 < fp_max_nl_iteration (pb_fp pb))%Z -> shift_is_force_free pb -> tau1 (next (r_clock s)) = 1 ->
  (forall i, pb_con_p pb i = false) -> reliable pb e s ->
  let c := next (r_clock s) in let x := r_sol (fst (advance_time_step pb e s)) in
  free_defect_norm pb (now c) (weighted pb c (fst x) (fst (r_sol s)) (fst (r_old s))) (convective_with pb (convecting c (fst (r_sol s)) (fst (r_old s))) (fst x)) (e_user e) x
    <= linear_bound (pb_fp pb).
Proof.
  intros Hl Hty Hmax F Ht Hc (R1 & R2 & R3 & R4) c x.
  assert (Hp : is_proj (fp_linearization (pb_fp pb)) = false) by (destruct (fp_linearization (pb_fp pb)); try discriminate Hl; reflexivity).
  assert (Hi : is_implicit (fp_linearization (pb_fp pb)) = false) by (destruct (fp_linearization (pb_fp pb)); try discriminate Hl; reflexivity).
  unfold x, advance_time_step, evaluate_time_step, solve_nonlinear_system. cbn [fst r_sol r_solution].
  set (s1 := init_time_advance pb s) in *. change (next (r_clock s)) with (r_clock s1) in c, Ht. change (r_sol s) with (r_old s1). change (r_old s) with (r_oo s1).
  match goal with |- context [nl_loop field field_add field_zero ?n ?o ?f ?q ?k ?l] =>
    destruct (loop_linearized field_add field_zero o f q k Hi n l ltac:(lia)) as [_ B]; rewrite B; clear B end.
  cbn [ls_solution ls_res ls_step].
  set (o := oracles_at pb e s1). set (tol := linear_tolerance (pb_fp pb) (o_residual field o (r_sol s1))).
  assert (Etol : tol = linear_bound (pb_fp pb)).
  { unfold tol, linear_tolerance, linear_bound. rewrite Hi. rewrite orb_true_r. destruct (fp_rel_lin_iteration (pb_fp pb)); [|reflexivity].
    rnum. unfold Q2R. cbn. lra. }
  assert (S : exists d, l_update field (solve_system field field_zero o (pb_fp pb) tol (Z.to_nat 0)) = distribute_update pb d /\
     residual_norm pb (subtract (fst (system_rhs pb c (e_user e) (r_old s1) (r_oo s1) (r_sol s1))) (system_matrix pb c (e_user e) (r_old s1) (r_oo s1) (r_sol s1) d)) <= tol).
  { unfold solve_system. assert (Hp2 : is_projection (fp_linearization (pb_fp pb)) = false) by (destruct (fp_linearization (pb_fp pb)); try discriminate Hl; reflexivity).
    rewrite Hp2. cbv zeta. destruct (k_converged field _) eqn:K.
    - eexists. split; [reflexivity|]. apply R1. exact K.
    - destruct (Z.ltb_spec (fp_iterations_before_inner_solvers (pb_fp pb)) (fp_max_lin_iteration (pb_fp pb))) as [_|?]; [|lia].
      eexists. split; [reflexivity|]. apply R2. rewrite Etol. apply R3. }
  destruct S as (d & Ed & Hd). rewrite Ed. clear Ed. rewrite Etol in Hd. clearbody tol. clear Etol tol.
  destruct (free_rows c (e_user e) (r_old s1) (r_oo s1) (r_sol s1) d Hl Hc) as [A B].
  destruct (system_rhs_form pb c (e_user e) (r_old s1) (r_oo s1) (field_add (r_sol s1) (distribute_update pb d)) Ht Hty Hp) as [C D].
  set (y := field_add (r_sol s1) (distribute_update pb d)) in *.
  apply Rle_trans with (2 := Hd). rewrite norm_of_parts. unfold free_defect_norm. rewrite shift_velocity. apply sqrt_le_1_alt. apply Rplus_le_compat; apply sumn_le; intros i _.
  - destruct (dirichlet_dof pb i) eqn:Di; [apply pow2_ge_0|]. right. rewrite (momentum_shift pb _ _ _ _ _ _ _ F Di). rewrite <- (A i Di), (C i), Di. reflexivity.
  - right. rewrite <- B, D. f_equal. f_equal. apply functional_extensionality. intros j. unfold continuity_defect. rewrite shift_velocity. reflexivity.
Qed.
Variable env : nat -> environment.
Variable s0 : state.
Variable p : ts_params RNum.
Notation x := (fun k => r_sol (run_steps pb env k s0)).
Notation t := (fun k => now (r_clock (run_steps pb env k s0))).
(** The linearized formulations: with linear solvers that converge, every step fulfils the scheme's equations (convecting velocity extrapolated
    from the two last time levels) at all unknowns that are not prescribed, up to the tolerance of the linear solver *)
Theorem C108_linearized_run :
  r_clock s0 = ts_init p -> well_posed p -> (tp_scheme p = bdf_2 \/ tp_scheme p = implicit_euler) ->
  fp_physical_type (pb_fp pb) = incompressible -> linearized (fp_linearization (pb_fp pb)) = true ->
  (0 < fp_max_nl_iteration (pb_fp pb))%Z -> shift_is_force_free pb -> (forall i, pb_con_p pb i = false) ->
  exists n, at_end (r_clock (run_steps pb env n s0)) = true /\ (forall k, (k < n)%nat -> at_end (r_clock (run_steps pb env k s0)) = false) /\
    t 0%nat = tp_start p /\ t n = tp_end p /\
    forall k, (1 <= k <= n)%nat ->
      t (k - 1)%nat < t k /\
      (forall i v, prescribed (pb_conditions pb) (t k) (pb_faces pb) i v -> fst (x k) i = v) /\
      ((Z.of_nat k <= 4294967296)%Z -> reliable pb (env (k - 1)%nat) (run_steps pb env (k - 1) s0) ->
       exists delta, Rabs delta <= / 1000000000000 /\
        free_defect_norm pb (t k) (derivative pb (tp_scheme p) k t x delta) (convective pb k t x) (e_user (env (k - 1)%nat)) (x k) <= linear_bound (pb_fp pb)).
Proof.
  intros H0 W Hs Hty Hi Hmax F Hc.
  assert (Ec : forall k, r_clock (run_steps pb env k s0) = next_n k (ts_init p)) by (intros k; rewrite clock_run, H0; reflexivity).
  destruct W as (W1 & W2 & W3 & W4). assert (W : well_posed p) by (repeat split; assumption).
  destruct (plain_loop_terminates p W1 W2 W4) as (n & Hn & He & Ht & Hk). exists n.
  rewrite !Ec. split; [exact He|]. split; [intros k L; rewrite Ec; apply Hk, L|]. split; [reflexivity|]. split; [exact Ht|].
  intros k [K1 K2]. destruct k as [|k]; [lia|]. replace (S k - 1)%nat with k by lia.
  assert (Hj : forall j, (j < S k)%nat -> at_end (next_n j (ts_init p)) = false) by (intros; apply Hk; lia).
  split; [rewrite !Ec; apply times_increase; assumption|]. split.
  - intros i v Hv. apply (boundary_step pb (env k) (run_steps pb env k s0)); [destruct (fp_linearization (pb_fp pb)); try discriminate Hi; reflexivity|exact Hv].
  - intros Lk Rel. assert (Lk2 : (Z.of_nat k < 4294967296)%Z) by lia.
    destruct (step_terms pb env s0 p k H0 W Hs Hj (or_intror Lk2)) as (Ht1 & delta & Hd & E). exists delta. split; [exact Hd|].
    destruct (E _ eq_refl) as [E1 E2]. rewrite <- E1, <- E2. exact (linear_step (env k) (run_steps pb env k s0) Hi Hty Hmax F Ht1 Hc Rel).
Qed.
(** but these formulations always report success, whatever the linear solvers did *)
Theorem C108_violation_always_success : linearized (fp_linearization (pb_fp pb)) = true -> (0 < fp_max_nl_iteration (pb_fp pb))%Z ->
  forall k, fst (report pb env k s0) = 1%Z.
Proof.
  intros Hl Hmax k.
  assert (Hi : is_implicit (fp_linearization (pb_fp pb)) = false) by (destruct (fp_linearization (pb_fp pb)); try discriminate Hl; reflexivity).
  unfold report, advance_time_step, evaluate_time_step, solve_nonlinear_system. cbn [snd r_outcome].
  match goal with |- context [nl_loop field field_add field_zero ?n ?o ?f ?q ?k ?l] =>
    assert (Hn : (0 < n)%nat) by (change (0 < Z.to_nat (fp_max_nl_iteration (pb_fp pb)))%nat; lia); destruct (loop_linearized field_add field_zero o f q k Hi n l Hn) as [B _]; rewrite B; clear B end.
  cbn [ls_step]. destruct (Z.ltb_spec 0 (fp_max_nl_iteration (pb_fp pb))) as [_|?]; [reflexivity|lia].
Qed.
End Linear.
Print Assumptions C108_linearized_run.
Print Assumptions C108_violation_always_success.

(** ** Example: two velocity unknowns, one free and one with the prescribed value [time]; unit force 3 on the free one; one step of size 1 *)
Definition ex_fp (l : linearization) : flow_params RNum :=
  MkFP (N:=RNum) 2 0 0 false false incompressible 0 2 false 1 1 0 0 1 (/ 1000000) l 1 (/ 1000000) false u_ilu p_mass_diag 1 String.EmptyString 0 1 0 false false
    implicit_euler 0 1 1 0 0 0 1 1 0 0 0 0 1 1 0 false 1 0 false false false false false 0 0 false.
Definition ex_p : ts_params RNum := MkTP (N:=RNum) implicit_euler 0 1 1 1 1.
Definition ex_site : site := MkSite 1 (fun _ _ => 1) (fun _ _ _ => 0) (fun _ => 0) 1 1 0.
Definition ex_pb (l : linearization) : problem unit :=
  MkProblem (ex_fp l) 1 2 0 [ex_site] (MkConditions (fun id => if Nat.eqb id 5 then Some (fun time _ _ => time) else None) (fun _ => false))
    [MkBFace 5%nat [(1%nat, tt, 0%nat)]] (fun _ => None) [] (fun _ => false) None None false.
Definition ex_krylov (converged : bool) (u0 : R) : Z -> R -> field -> nat -> krylov (N:=RNum) field :=
  fun _ _ _ _ => MkKrylov (N:=RNum) field 1%Z 0 (fun i => if Nat.eqb i 0 then u0 else 7, fun _ => 0) converged.
Definition ex_env (converged : bool) (u0 : R) (k : nat) : environment :=
  MkEnv (ex_krylov converged u0) (ex_krylov converged u0) (fun _ => MkKrylov (N:=RNum) field 0%Z 0 field_zero false) (fun _ => 0) (fun i => if Nat.eqb i 0 then 3 else 0, fun _ => 0).
Definition ex_s0 : state := MkState (ts_init ex_p) field_zero field_zero field_zero (MkPrec 0 0 true 0).

Lemma ex_time : now (next (ts_init ex_p)) = 1.
Proof.
  unfold next, now, next_time, next_hits_end, next_s, not_at_start. cbn. rnum. destruct (Reqb_spec 0 0) as [_|?]; [|congruence]. cbn.
  unfold Q2R. cbn. match goal with |- context [Rltb ?a ?b] => destruct (Rltb_spec a b) as [?|Q] end; [reflexivity|]. exfalso. apply Q. lra.
Qed.
Lemma ex_x1 l c u0 : (l = coupled_implicit_picard \/ l = coupled_velocity_semi_implicit) -> let x1 := fst (r_sol (run_steps (ex_pb l) (ex_env c u0) 1 ex_s0)) in x1 0%nat = u0 /\ x1 1%nat = 1.
Proof.
  intros Hl x1.
  assert (G : exists g : field, x1 = fst (field_add g (distribute_update (ex_pb l) (fun i => if Nat.eqb i 0 then u0 else 7, fun _ => 0))) /\ fst g 0%nat = 0 /\ fst g 1%nat = 1).
  { eexists. unfold x1. clear x1. cbn [run_steps]. unfold advance_time_step, evaluate_time_step, solve_nonlinear_system. cbn [fst r_sol r_solution ex_s0]. rewrite shift_velocity.
    change (Z.to_nat (fp_max_nl_iteration (pb_fp (ex_pb l)))) with 1%nat. cbn [nl_loop]. cbv zeta.
    assert (U : forall tol call, l_update field (solve_system field field_zero (oracles_at (ex_pb l) (ex_env c u0 0) (init_time_advance (ex_pb l) ex_s0)) (ex_fp l) tol call)
              = distribute_update (ex_pb l) (fun i => if Nat.eqb i 0 then u0 else 7, fun _ => 0)).
    { intros tol call. unfold solve_system. destruct Hl as [-> | ->]; cbn; destruct c; reflexivity. }
    split.
    - destruct Hl as [-> | ->]; cbn [ex_pb pb_fp ex_fp fp_linearization is_implicit negb].
      + destruct (nltb _ _); cbn [ls_solution]; apply (f_equal fst), (f_equal (field_add _)); exact (U _ _).
      + cbn [ls_solution]. apply (f_equal fst), (f_equal (field_add _)); exact (U _ _).
    - cbn [ls_solution init_time_advance r_sol fst ex_s0 r_clock]. unfold apply_boundary_conditions_u, distribute, no_hanging. cbn. split.
      + unfold extrapolate. rnum. ring.
      + exact ex_time. }
  destruct G as (g & -> & G0 & G1). cbn. rewrite G0, G1. lra.
Qed.
Lemma ex_derivative l c u0 delta : (l = coupled_implicit_picard \/ l = coupled_velocity_semi_implicit) ->
  let x k := r_sol (run_steps (ex_pb l) (ex_env c u0) k ex_s0) in let t k := now (r_clock (run_steps (ex_pb l) (ex_env c u0) k ex_s0)) in
  momentum_defect (ex_pb l) (t 1%nat) (derivative (ex_pb l) implicit_euler 1 t x delta) (convective (ex_pb l) 1 t x) (fst (e_user (ex_env c u0 0))) (x 1%nat) 0%nat
  = 3 - (1 + delta) * (u0 + 1).
Proof.
  intros Hl x t. destruct (ex_x1 l c u0 Hl) as [X0 X1]. fold (x 1%nat) in X0, X1.
  assert (T1 : t 1%nat = 1) by exact ex_time. assert (T0 : t 0%nat = 0) by reflexivity. assert (Z0 : fst (x 0%nat) = fun _ => 0) by reflexivity.
  assert (C : forall s d, In s (pb_sites (ex_pb l)) -> convective (ex_pb l) 1 t x s d = 0).
  { intros s d [<-|[]].
    assert (Tz : forall a u, transport (ex_pb l) a u ex_site d = 0).
    { intros a u. unfold transport. change (fp_beta (pb_fp (ex_pb l))) with 0. rewrite sumn_zero; [ring|]. intros e _.
      unfold gradient_at. rewrite (sumn_zero (pb_nu (ex_pb l)) (fun j => u j * _)); [ring|]. intros j _. cbn. ring. }
    unfold convective. cbn [pb_fp ex_pb ex_fp fp_linearization]. destruct l; apply Tz. }
  unfold momentum_defect. change (pb_sites (ex_pb l)) with [ex_site]. change (pb_dim (ex_pb l)) with 1%nat. cbn [suml sumn]. rewrite !C by (left; reflexivity). clear C.
  unfold derivative, difference, lead, three_levels. cbn [scheme_eqb andb]. change (1 - 1)%nat with 0%nat. rewrite T1, T0, Z0. unfold velocity_at, gradient_at, external_load, pressure_at, divergence_at, test_divergence, sym.
  cbn -[x]. rewrite X0, X1. field.
Qed.
(** the hypotheses of C108_implicit_run hold and the step is successful *)
Example C108_nonvacuous : let pb := ex_pb coupled_implicit_picard in
  r_clock ex_s0 = ts_init ex_p /\ well_posed ex_p /\ shift_is_force_free pb /\ report pb (ex_env true 2) 0 ex_s0 <> (0, 0)%Z /\
  prescribed (pb_conditions pb) 1 (pb_faces pb) 1 1 /\ fst (r_sol (run_steps pb (ex_env true 2) 1 ex_s0)) 0%nat = 2.
Proof.
  intros pb. assert (W : well_posed ex_p) by (unfold well_posed; cbn; rnum; lra). assert (F : shift_is_force_free pb) by (intros m Hf; discriminate Hf).
  split; [reflexivity|]. split; [exact W|]. split; [exact F|]. split; [|split].
  - destruct (C108_implicit_run pb (ex_env true 2) ex_s0 ex_p eq_refl W (or_intror eq_refl) eq_refl eq_refl ltac:(cbn; lia) F) as (n & _ & _ & _ & Hz & He & Hk).
    assert (L : (1 <= n)%nat). { destruct n; [|lia]. exfalso. rewrite Hz in He. cbn in He. lra. }
    destruct (Hk 1%nat ltac:(lia)) as (_ & _ & delta & Hd & Q). change (1 - 1)%nat with 0%nat in Q. apply Q. clear Q.
    unfold defect_norm. change (pb_nu pb) with 2%nat. change (pb_np pb) with 0%nat. cbn [sumn]. unfold pb.
    assert (E := ex_derivative coupled_implicit_picard true 2 delta (or_introl eq_refl)). cbv zeta in E.
    change (dirichlet_dof (ex_pb coupled_implicit_picard) 0) with false. change (dirichlet_dof (ex_pb coupled_implicit_picard) 1) with true. cbv iota.
    change (tp_scheme ex_p) with implicit_euler. rewrite E. cbn. 
    assert (Hd1 := Rle_abs delta). assert (Hd2 := Rle_abs (- delta)). rewrite Rabs_Ropp in Hd2.
    match goal with |- sqrt ?a < _ => replace a with (Rsqr (3 * delta)) by (unfold Rsqr; ring) end.
    rewrite sqrt_Rsqr_abs. unfold Rabs. destruct (Rcase_abs (3 * delta)); lra.
  - split.
    + exists (MkBFace 5%nat [(1%nat, tt, 0%nat)]). split; [left; reflexivity|]. exists (fun _ _ => 1), tt, 0%nat. repeat split. left; reflexivity.
    + intros f v [<-|[]] (g & y & k & E & Hin & ->). cbn in E. inversion E; subst g. reflexivity.
  - apply (ex_x1 coupled_implicit_picard true 2 (or_introl eq_refl)).
Qed.
(** the linear solver gives up with the zero update: the step reports success although the equation is not fulfilled *)
Theorem C108_violation_unreported : exists (pb : problem unit) env s0 p,
  r_clock s0 = ts_init p /\ well_posed p /\ tp_scheme p = implicit_euler /\ fp_physical_type (pb_fp pb) = incompressible /\
  linearized (fp_linearization (pb_fp pb)) = true /\ (0 < fp_max_nl_iteration (pb_fp pb))%Z /\ shift_is_force_free pb /\ (forall i, pb_con_p pb i = false) /\
  fp_tol_nl_iteration (pb_fp pb) < 1 /\
  let x k := r_sol (run_steps pb env k s0) in let t k := now (r_clock (run_steps pb env k s0)) in
  report pb env 0 s0 = (1, 1)%Z /\
  forall delta, Rabs delta <= / 1000000000000 ->
    1 <= free_defect_norm pb (t 1%nat) (derivative pb (tp_scheme p) 1 t x delta) (convective pb 1 t x) (e_user (env 0%nat)) (x 1%nat).
Proof.
  exists (ex_pb coupled_velocity_semi_implicit), (ex_env false 0), ex_s0, ex_p.
  split; [reflexivity|]. split; [unfold well_posed; cbn; rnum; lra|]. do 3 (split; [reflexivity|]). split; [cbn; lia|]. split; [intros m Hf; discriminate Hf|].
  split; [reflexivity|]. split; [cbn; lra|]. intros x t. split.
  - unfold report, advance_time_step, evaluate_time_step, solve_nonlinear_system. cbn [snd r_outcome].
    change (Z.to_nat (fp_max_nl_iteration (pb_fp (ex_pb coupled_velocity_semi_implicit)))) with 1%nat. cbn [nl_loop]. cbv zeta. reflexivity.
  - intros delta Hd. assert (Hd1 := Rle_abs delta). assert (Hd2 := Rle_abs (- delta)). rewrite Rabs_Ropp in Hd2. assert (E := ex_derivative coupled_velocity_semi_implicit false 0 delta (or_intror eq_refl)). cbv zeta in E.
    fold x t in E. unfold free_defect_norm. change (pb_nu (ex_pb coupled_velocity_semi_implicit)) with 2%nat. change (pb_np (ex_pb coupled_velocity_semi_implicit)) with 0%nat. cbn [sumn].
    change (dirichlet_dof (ex_pb coupled_velocity_semi_implicit) 0) with false. change (dirichlet_dof (ex_pb coupled_velocity_semi_implicit) 1) with true. cbv iota.
    change (tp_scheme ex_p) with implicit_euler. rewrite E. clear E. rewrite <- sqrt_1 at 1. apply sqrt_le_1_alt. nra.
Qed.
Print Assumptions C108_violation_unreported.

(** the hypotheses of C108_linearized_run can be met: two further solvers for the same problem that are honest, the second always succeeds *)
Definition ex_reliable : environment :=
  MkEnv (ex_krylov false 0) (fun _ tol _ _ => MkKrylov (N:=RNum) field 1%Z 0 (fun i => if Nat.eqb i 0 then 2 else 0, fun _ => 0) (Rltb 0 tol))
    (fun _ => MkKrylov (N:=RNum) field 0%Z 0 field_zero false) (fun _ => 0) (fun i => if Nat.eqb i 0 then 3 else 0, fun _ => 0).
Definition ex_pb2 : problem unit :=
  MkProblem (MkFP (N:=RNum) 2 0 0 false false incompressible 0 2 false 1 1 0 0 1 (/ 1000000) coupled_velocity_semi_implicit 9 (/ 1000000) false u_ilu p_mass_diag 1 String.EmptyString 0 1 0 false false
    implicit_euler 0 1 1 0 0 0 1 1 0 0 0 0 1 1 0 false 1 0 false false false false false 0 0 false) 1 2 0 [ex_site] (pb_conditions (ex_pb projection)) (pb_faces (ex_pb projection))
    (fun _ => None) [] (fun _ => false) None None false.
Example C108_linearized_nonvacuous : reliable ex_pb2 ex_reliable ex_s0 /\ shift_is_force_free ex_pb2 /\ linearized (fp_linearization (pb_fp ex_pb2)) = true.
Proof.
  split; [|split; [intros m Hf; discriminate Hf|reflexivity]].
  split; [intros b tol g k K; discriminate K|]. split; [|split; [|cbn; lia]].
  - intros b tol g k K. cbn [ex_reliable e_strong k_iterate k_converged] in *. destruct (Rltb_spec 0 tol) as [L|?]; [|discriminate K]. clear K.
    set (s1 := init_time_advance ex_pb2 ex_s0). set (d := (fun i : nat => if Nat.eqb i 0 then 2 else 0, fun _ : nat => 0) : field).
    assert (T : tau1 (r_clock s1) = 1). { cbn. unfold Q2R. cbn. lra. }
    assert (Wt : weight (r_clock s1) = 1).
    { cbn [s1 init_time_advance r_clock ex_s0]. unfold weight. cbn [next weight_val].
      assert (Nw : next_new_weight (ts_init ex_p) = 1).
      { unfold next_new_weight, next_uses_bdf, next_step, next_hits_end, next_s, not_at_start. cbn. rnum. destruct (Reqb_spec 0 0) as [_|?]; [|congruence]. cbn.
        unfold Q2R. cbn. match goal with |- context [Rltb ?a ?b] => destruct (Rltb_spec a b) as [?|Q] end; [field|exfalso; apply Q; lra]. }
      unfold next_weight_changes. rewrite Nw. cbn. rnum. unfold Q2R. cbn.
      match goal with |- context [Rltb ?a ?b] => destruct (Rltb a b) end; [reflexivity|field]. }
    destruct (free_rows ex_pb2 (r_clock s1) (e_user ex_reliable) (r_old s1) (r_oo s1) (r_sol s1) d eq_refl (fun _ => eq_refl)) as [A _].
    destruct (system_rhs_form ex_pb2 (r_clock s1) (e_user ex_reliable) (r_old s1) (r_oo s1) (field_add (r_sol s1) (distribute_update ex_pb2 d)) T eq_refl eq_refl) as [C _].
    destruct (system_rhs_form ex_pb2 (r_clock s1) (e_user ex_reliable) (r_old s1) (r_oo s1) (r_sol s1) T eq_refl eq_refl) as [C1 _].
    rewrite norm_of_parts. change (pb_nu ex_pb2) with 2%nat. change (pb_np ex_pb2) with 0%nat. cbn [sumn].
    rewrite <- (A 0%nat eq_refl), (C 0%nat). change (dirichlet_dof ex_pb2 0) with false. cbv iota.
    match goal with |- sqrt (0 + ?a ^ 2 + ?b ^ 2 + 0) <= _ => assert (Ea : a = 0); [|assert (Eb : b = 0)] end.
    + assert (Tz : forall a u e, transport ex_pb2 a u ex_site e = 0).
      { intros a u e. unfold transport. change (fp_beta (pb_fp ex_pb2)) with 0. rewrite sumn_zero; [ring|]. intros e1 _.
        unfold gradient_at. rewrite (sumn_zero (pb_nu ex_pb2) (fun j => u j * _)); [ring|]. intros j _. cbn. ring. }
      unfold momentum_defect. change (pb_sites ex_pb2) with [ex_site]. change (pb_dim ex_pb2) with 1%nat. cbn [suml sumn].
      unfold convective_with. change (fp_linearization (pb_fp ex_pb2)) with coupled_velocity_semi_implicit. cbv iota. rewrite !Tz. unfold weighted. rewrite Wt.
      assert (X : velocity_at ex_pb2 (fst (field_add (r_sol s1) (distribute_update ex_pb2 d))) ex_site 0 = 3).
      { unfold velocity_at. change (pb_nu ex_pb2) with 2%nat. cbn [sumn].
        assert (X0 : fst (r_sol s1) 0%nat = 0). { cbn. unfold extrapolate. rnum. ring. }
        assert (X1 : fst (r_sol s1) 1%nat = 1) by exact ex_time. cbn [field_add fst]. rewrite X0, X1. cbn. ring. }
      assert (Sy : sym (st_dphi ex_site 0) 0 0 = 0) by (unfold sym; cbn; lra).
      assert (Td : test_divergence ex_pb2 ex_site 0 = 0) by (cbn; ring).
      rewrite X, Sy, Td. cbn. ring.
    + cbn [subtract fst]. rewrite C1. change (dirichlet_dof ex_pb2 1) with true. cbv iota. cbn. ring.
    + rewrite Ea, Eb. replace (0 + 0 ^ 2 + 0 ^ 2 + 0) with 0 by ring. rewrite sqrt_0. lra.
  - intros b g k. cbn. destruct (Rltb_spec 0 (/ 1000000)) as [?|Q]; [reflexivity|exfalso; lra].
Qed.
