(** * C115: mass of the phase field over a whole run; C116: the free energy of the phase field *)
From Coq Require Import ZArith QArith Reals Lra Lia List Bool.
From Verif Require Import Num Model_TimeStepping Spec_TimeStepping Proofs_TimeStepping Proofs_TimeStepping2
  Model_TwoPhaseClocks Properties_TwoPhaseClocks SumR Model_Bubble Properties_Bubble Model_LevelSetOps Properties_LevelSetOps
  Model_PhaseField Properties_PhaseField Model_LevelSetRun Properties_LevelSetRun Model_PhaseFieldRun.
From Verif Require Properties_Blocks.
Import ListNotations.
Local Open Scope R_scope.

(** ** Specification *)
(** the velocity at the quadrature points of a step has no divergence as seen by the functions of the phase field space:
    int u . grad phi_j = 0 for all j *)
Definition divergence_free (s : lspace) (pts : list cpoint) : Prop :=
  forall j, (j < l_n s)%nat -> suml pts (fun p => l_JxW (c_pt p) * sumn (l_dim s) (fun d => c_vel p d * l_grad (c_pt p) j d)) = 0.
(** every linear system of the run is solved exactly (at most pp_max per step) *)
Definition exact_solves (P : pf_problem) ds pts solver (a : pf_state) (n : nat) : Prop :=
  forall m b k, (m < n)%nat -> (k < pp_max P)%nat -> pf_run P ds pts solver a m b ->
    let c := next (N:=RNum) (request_step (N:=RNum) (pfs_clock b) (ds m)) in
    let res := pf_residual P (pts m) c (pfs_cur b) (pfs_old b) in
    let V := iterate res (b_distribute (pp_space P)) (solver m) (b_extrapolated c (pfs_cur b) (pfs_old b)) k in
    solves_newton (pp_space P) (pp_par P) (clock_weights c) (pts m) (pp_faces P) (b_c (pfs_cur b)) (b_c (pfs_old b)) V (solver m k (snd (res V)) (fst (res V))).
(** the quadrature points do not move (no mesh refinement in between), the shape functions sum to one, no inflow boundaries *)
Definition pf_mesh (P : pf_problem) (points : list lpoint) (pts : nat -> list cpoint) (n : nat) : Prop :=
  partition_of_unity (pp_space P) points /\ unconstrained (pp_space P) /\ (forall m, (m < n)%nat -> map c_pt (pts m) = points).

(** ** The clock *)
Lemma pf_run_clock P p ds pts solver a n b : pfs_clock a = ck_ns (setup_clocks (N:=RNum) p) -> pf_run P ds pts solver a n b ->
  pfs_clock b = ck_ns (two_phase_loop (N:=RNum) ds (fun _ => false) n (setup_clocks p)) /\ legal_run ds (fun _ => false) n (setup_clocks p).
Proof.
  intros Ha R. induction R as [|n b c R [I1 I2] E T].
  - split; [exact Ha|]. intros m Hm. lia.
  - split.
    + unfold pf_time_step in T. destruct (advance_cahn_hilliard _ _ _ _ _ _ _ _) as [[U l]|]; [|discriminate T]. injection T as <-. cbn [pfs_clock].
      rewrite I1. reflexivity.
    + intros m Hm. destruct (Nat.eq_dec m n) as [->|Hne]; [rewrite <- I1; exact E|]. apply I2. lia.
Qed.

(** the weights of the flow clock in step n + 1 *)
Lemma flow_weights (p : ts_params RNum) ds sm n : sensible p -> legal_run ds sm (S n) (setup_clocks p) -> (Z.of_nat (S n) < 4294967296)%Z ->
  let w := clock_weights (ck_ns (two_phase_loop (N:=RNum) ds sm (S n) (setup_clocks p))) in
  0 < w_new w /\
  ((w_use_old_old w = false /\
     exists cur, 0 < cur /\ w_old w = - (1 / cur) /\ Rabs (w_new w - 1 / cur) <= 1 / cur / 1000000000000) \/
   ((0 < n)%nat /\ w_use_old_old w = true /\
     exists cur last, 0 < cur <= 101 / 100 * last /\
       w_old w = - ((cur + last) / (cur * last)) /\ w_old_old w = cur / (last * (cur + last)) /\
       Rabs (w_new w - (2 * cur + last) / (cur * (cur + last))) <= (2 * cur + last) / (cur * (cur + last)) / 1000000000000)).
Proof.
  intros Sp L Hn w.
  assert (L' : legal_run ds sm n (setup_clocks p)) by (intros m Hm; apply L; lia).
  assert (E0 : at_end (ck_ns (two_phase_loop (N:=RNum) ds sm n (setup_clocks p))) = false) by (apply L; lia).
  destruct (loop_sync p ds sm n Sp L') as [_ A]. destruct (A E0) as [_ S0]. clear A.
  destruct (loop_facts p ds sm n Sp L' E0) as (I1 & I2 & I3 & I4 & I5 & I6).
  unfold w. cbn [two_phase_loop]. unfold two_phase_step. cbn [ck_ns].
  set (c := ck_ns (two_phase_loop (N:=RNum) ds sm n (setup_clocks p))) in *. clearbody c. clear w.
  destruct (request_settled c (ds n) S0) as (s & R1 & D1 & _). rewrite R1.
  destruct (clock_step c s S0 E0 I1 D1) as (K1 & K2 & _ & _).
  assert (NA : not_at_start c = negb (Nat.eqb n 0)).
  { unfold not_at_start. rewrite I4. destruct (Nat.eqb_spec n 0) as [Z|Z]; cbn [negb].
    - apply negb_false_iff. rnum. apply Num.Reqb_true. exact (I5 Z).
    - apply negb_true_iff. rnum. apply Num.Reqb_false. specialize (I6 ltac:(lia)). lra. }
  assert (SN : (1 <? step_no (next (with_step c s)))%Z = negb (Nat.eqb n 0)).
  { unfold step_no. cbn [next step_no_val with_step]. rewrite I2, Zplus_mod_idemp_l.
    rewrite Z.mod_small by lia. destruct (Nat.eqb_spec n 0) as [Z|Z]; cbn [negb]; [apply Z.ltb_ge|apply Z.ltb_lt]; lia. }
  assert (UB : next_uses_bdf (with_step c s) = w_use_old_old (clock_weights (next (with_step c s)))).
  { unfold next_uses_bdf, clock_weights. cbn [w_use_old_old]. rewrite SN. unfold ts_scheme. cbn [next scheme_val with_step].
    change (not_at_start (with_step c s)) with (not_at_start c). rewrite NA. reflexivity. }
  rewrite <- UB. unfold clock_weights. cbn [w_new w_old w_old_old].
  pose proof (weight_close (with_step c s)) as WC.
  unfold weight_old, weight_old_old. cbn [next weight_old_val weight_old_old_val]. unfold next_weight_old, next_weight_old_old, next_new_weight in *.
  assert (CL : forall x v : R, 0 < v -> Rabs (x - v) <= v / 1000000000000 -> 0 < x).
  { intros x v Hv Hx. rewrite Rabs_minus_sym in Hx. pose proof (Rle_abs (v - x)). lra. }
  destruct (next_uses_bdf (with_step c s)) eqn:U.
  - assert (N0 : not_at_start c = true).
    { unfold next_uses_bdf in U. apply andb_true_iff in U as [_ U]. exact U. }
    rewrite NA in N0. destruct (Nat.eqb_spec n 0) as [Z|Z]; [discriminate N0|].
    rewrite (K2 ltac:(rewrite NA; destruct (Nat.eqb_spec n 0); [lia|reflexivity])) in *. rnum. q2r.
    set (cur := next_step (with_step c s)) in *. clearbody cur.
    assert (Q : 0 < (2 * cur + s) / (cur * (cur + s))) by (apply Rdiv_lt_0_compat; [lra|apply Rmult_lt_0_compat; lra]).
    replace (2 * / 1 * cur + s) with (2 * cur + s) in WC by (rewrite Rinv_1; ring). specialize (WC Q).
    split; [exact (CL _ _ Q WC)|]. right. split; [lia|]. split; [reflexivity|].
    exists cur, s. split; [exact K1|]. split; [reflexivity|]. split; [reflexivity|]. exact WC.
  - rnum. q2r. set (cur := next_step (with_step c s)) in *. clearbody cur.
    replace (1 * / 1 / cur) with (1 / cur) in WC by (rewrite Rinv_1, Rmult_1_r; reflexivity).
    assert (Q : 0 < 1 / cur) by (apply Rdiv_lt_0_compat; lra). specialize (WC Q).
    split; [exact (CL _ _ Q WC)|]. left. split; [reflexivity|]. exists cur. split; [lra|]. split; [field; lra|]. exact WC.
Qed.

(** ** One step *)
Lemma convected_zero s pts c : divergence_free s pts -> convected s pts c = 0.
Proof.
  intros H. unfold convected. transitivity (sumn (l_n s) (fun j => c j * suml pts (fun p => l_JxW (c_pt p) * sumn (l_dim s) (fun d => c_vel p d * l_grad (c_pt p) j d)))).
  - rewrite (sumn_ext _ _ (fun j => suml pts (fun p => c j * (l_JxW (c_pt p) * sumn (l_dim s) (fun d => c_vel p d * l_grad (c_pt p) j d))))) by (intros; rewrite suml_scal; reflexivity).
    rewrite <- suml_sumn. apply suml_ext. intros p _. unfold ldot, lgradient.
    rewrite (sumn_ext (l_dim s) _ (fun d => sumn (l_n s) (fun j => c j * (c_vel p d * l_grad (c_pt p) j d)))).
    2: { intros d _. rewrite Rmult_comm, <- sumn_scal. apply sumn_ext. intros; ring. }
    rewrite sumn_swap, <- sumn_scal. apply sumn_ext. intros j _. rewrite sumn_scal. ring.
  - apply sumn_zero. intros j Hj. rewrite H by exact Hj. ring.
Qed.

Lemma pf_step_shape P d pts solver a b : pf_time_step P d pts solver a = Some b ->
  let c := next (N:=RNum) (request_step (N:=RNum) (pfs_clock a) d) in
  pfs_clock b = c /\ pfs_old b = pfs_cur a /\ pfs_old_old b = pfs_old a /\ pp_newton P = true /\
  exists log, advance_cahn_hilliard (pf_residual P pts c (pfs_cur a) (pfs_old a)) (b_norm (pp_space P)) (b_distribute (pp_space P)) solver
          true (pp_tol P) (pp_max P) (b_extrapolated c (pfs_cur a) (pfs_old a)) = Some (pfs_cur b, log).
Proof.
  intros T c. unfold pf_time_step in T. fold c in T.
  destruct (pp_newton P) eqn:EN; [|discriminate T].
  destruct (advance_cahn_hilliard _ _ _ _ _ _ _ _) as [[U l]|] eqn:E; [|discriminate T]. injection T as <-. cbn [pfs_clock pfs_cur pfs_old pfs_old_old].
  refine (conj eq_refl (conj eq_refl (conj eq_refl (conj eq_refl _)))). exists l. reflexivity.
Qed.

Lemma pf_step_balance P points ds pts solver a n b c :
  partition_of_unity (pp_space P) points -> unconstrained (pp_space P) -> map c_pt (pts n) = points -> (0 < pp_max P)%nat ->
  divergence_free (pp_space P) (pts n) -> exact_solves P ds pts solver a (S n) -> pf_run P ds pts solver a n b ->
  pf_time_step P (ds n) (pts n) (solver n) b = Some c -> w_new (clock_weights (pfs_clock c)) <> 0 ->
  let M U := integral (pp_space P) points U in
  let w := clock_weights (pfs_clock c) in
  w_new w * M (b_c (pfs_cur c)) + w_old w * M (b_c (pfs_cur b)) + (if w_use_old_old w then w_old_old w * M (b_c (pfs_old b)) else 0) = 0.
Proof.
  intros PU U Hp Hm Hd Hx R T Hw M w.
  destruct (pf_step_shape P _ _ _ _ _ T) as (E1 & _ & _ & EN & log & E). cbv zeta in E1. 
  unfold w in *. clear w. rewrite E1 in *.
  pose proof (Hx n b) as X. cbv zeta in X.
  set (c0 := next (N:=RNum) (request_step (N:=RNum) (pfs_clock b) (ds n))) in *.
  destruct (C66_newton_loop (pf_residual P (pts n) c0 (pfs_cur b) (pfs_old b)) (b_norm (pp_space P)) (b_distribute (pp_space P)) (solver n) (pp_tol P) (pp_max P)
    (b_extrapolated c0 (pfs_cur b) (pfs_old b))) as (V & log' & E' & HV). cbv zeta in HV. destruct HV as (HV & H2 & H1 & _).
  rewrite E in E'. injection E' as <- <-. specialize (H1 Hm). destruct (nl_solves log) as [|k]; [lia|]. cbn [iterate] in HV. cbv zeta in HV.
  pose proof (C65_balance (pp_space P) (pp_par P) (clock_weights c0) (pts n) (pp_faces P) (b_c (pfs_cur b)) (b_c (pfs_old b)) _ _
    ltac:(unfold lpoints; rewrite Hp; exact PU) U Hw (X k (Nat.lt_succ_diag_r n) ltac:(lia) R)) as B. cbv zeta in B.
  unfold lpoints in B. rewrite Hp, (convected_zero _ _ _ Hd), Rplus_0_r in B. unfold M. rewrite HV. exact B.
Qed.

(** ** C115 *)
(** over the whole run, for every number of steps, every history of step size requests, every velocity without divergence and every
    number of Newton iterations, the integral of the phase field changes at most by 2e-12 relative per step *)
Theorem C115_mass : forall (P : pf_problem) (p : ts_params RNum) points ds pts solver initial a n b,
  pf_mesh P points pts n -> sensible p -> (Z.of_nat n < 4294967296)%Z -> (0 < pp_max P)%nat ->
  (forall m, (m < n)%nat -> divergence_free (pp_space P) (pts m)) -> exact_solves P ds pts solver a n ->
  pf_setup p initial a -> pf_run P ds pts solver a n b ->
  let M U := integral (pp_space P) points (b_c U) in
  Rabs (M (pfs_cur b) - M initial) <= ((1 + 2 / 1000000000000) ^ n - 1) * Rabs (M initial).
Proof.
  intros P p points ds pts solver initial a n b (PU & Un & Hp) Sp Hn Hm Hd Hx [Ha E0] R M.
  set (mu := Rabs (M initial)). assert (Hmu : 0 <= mu) by apply Rabs_pos.
  replace (1 + 2 / 1000000000000) with rho by (unfold rho, tiny; lra).
  assert (T0 : 0 < tiny < 1 / 1000) by (unfold tiny; lra).
  assert (Q1 : 1 <= rho) by (unfold rho; lra).
  assert (QP : forall k, 1 <= rho ^ k) by (intros k; apply pow_R1_Rle; exact Q1).
  enough (G : Rabs (M (pfs_cur b)) <= mu * rho ^ n /\ Rabs (M (pfs_cur b) - M initial) <= (rho ^ n - 1) * mu /\
    (forall m, n = Datatypes.S m -> Rabs (M (pfs_cur b) - M (pfs_old b)) <= 2 * tiny * mu * rho ^ m)) by (destruct G as (_ & G & _); exact G).
  revert Hn Hp Hd Hx. induction R as [|n b c R IH E T]; intros Hn Hp Hd Hx.
  - rewrite E0. cbn [pow]. fold mu. replace (M initial - M initial) with 0 by ring. rewrite Rabs_R0. split; [lra|]. split; [lra|]. intros m Hk. discriminate Hk.
  - destruct (IH ltac:(lia) (fun m H => Hp m ltac:(lia)) (fun m H => Hd m ltac:(lia)) (fun m b k H => Hx m b k ltac:(lia))) as (I1 & I2 & I3). clear IH.
    destruct (pf_run_clock P p ds pts solver a (Datatypes.S n) c Ha (pr_step _ _ _ _ _ n b c R E T)) as [C1 L].
    destruct (flow_weights p ds (fun _ => false) n Sp L Hn) as [Wp W]. rewrite <- C1 in Wp, W.
    pose proof (pf_step_balance P points ds pts solver a n b c PU Un (Hp n ltac:(lia)) Hm (Hd n ltac:(lia)) Hx R T (Rgt_not_eq _ _ Wp)) as B. cbv zeta in B.
    change (w_new (clock_weights (pfs_clock c)) * M (pfs_cur c) + w_old (clock_weights (pfs_clock c)) * M (pfs_cur b) + (if w_use_old_old (clock_weights (pfs_clock c)) then w_old_old (clock_weights (pfs_clock c)) * M (pfs_old b) else 0) = 0) in B.
    clearbody M. set (w := clock_weights (pfs_clock c)) in *. clearbody w.
    destruct (pf_step_shape P _ _ _ _ _ T) as (_ & T2 & _).
    assert (D : Rabs (M (pfs_cur c) - M (pfs_cur b)) <= 2 * tiny * mu * rho ^ n).
    { destruct W as [(U & cur & W1 & W2 & W3)|(N0 & U & cur & last & W1 & W2 & W3 & W4)]; rewrite U in B.
      - rewrite W2, Rplus_0_r in B. assert (X : Rabs (M (pfs_cur c) - M (pfs_cur b)) <= 11 / 10 * tiny * Rabs (M (pfs_cur b))) by exact (euler_recursion _ _ _ _ W1 W3 B).
        assert (11 / 10 * tiny * Rabs (M (pfs_cur b)) <= 11 / 10 * tiny * (mu * rho ^ n)) by (apply Rmult_le_compat_l; lra).
        assert (0 <= tiny * (mu * rho ^ n)) by (apply Rmult_le_pos; [lra|apply Rmult_le_pos; [lra|specialize (QP n); lra]]). lra.
      - rewrite W2, W3 in B. assert (X : Rabs (M (pfs_cur c) - M (pfs_cur b)) <= 11 / 10 * tiny * Rabs (M (pfs_cur b)) + 35 / 100 * Rabs (M (pfs_cur b) - M (pfs_old b))) by exact (bdf_recursion _ _ _ _ _ _ W1 W4 B). destruct n as [|m]; [lia|].
        specialize (I3 m eq_refl).
        assert (11 / 10 * tiny * Rabs (M (pfs_cur b)) <= 11 / 10 * tiny * (mu * rho ^ Datatypes.S m)) by (apply Rmult_le_compat_l; lra).
        assert (Y : 2 * tiny * mu * rho ^ m <= 2 * tiny * mu * rho ^ Datatypes.S m).
        { apply Rmult_le_compat_l; [apply Rmult_le_pos; lra|]. cbn [pow]. specialize (QP m). nra. }
        assert (0 <= tiny * (mu * rho ^ Datatypes.S m)) by (apply Rmult_le_pos; [lra|apply Rmult_le_pos; [lra|specialize (QP (Datatypes.S m)); lra]]). lra. }
    refine (conj _ (conj _ _)).
    + replace (M (pfs_cur c)) with (M (pfs_cur b) + (M (pfs_cur c) - M (pfs_cur b))) by ring. eapply Rle_trans; [apply Rabs_triang|].
      cbn [pow]. replace (mu * (rho * rho ^ n)) with (mu * rho ^ n + 2 * tiny * mu * rho ^ n) by (unfold rho; ring). lra.
    + replace (M (pfs_cur c) - M initial) with ((M (pfs_cur b) - M initial) + (M (pfs_cur c) - M (pfs_cur b))) by ring. eapply Rle_trans; [apply Rabs_triang|].
      cbn [pow]. replace ((rho * rho ^ n - 1) * mu) with ((rho ^ n - 1) * mu + 2 * tiny * mu * rho ^ n) by (unfold rho; ring). lra.
    + intros m Hk. injection Hk as <-. rewrite T2. exact D.
Qed.
Print Assumptions C115_mass.

(** A step that used fewer linear solves than allowed returns a phase field and potential that fulfil every single equation of the step up to
    the tolerance *)
Lemma b_norm_entries s (r : block2) e : b_norm s r < e -> forall i, (i < l_n s)%nat -> Rabs (b_c r i) < e /\ Rabs (b_w r i) < e.
Proof.
  intros H i Hi. unfold b_norm in H.
  set (A := sumn (l_n s) (fun i => b_c r i * b_c r i)) in *. set (B := sumn (l_n s) (fun i => b_w r i * b_w r i)) in *.
  assert (HA : b_c r i * b_c r i <= A) by (unfold A; apply (Properties_Blocks.sumn_term (l_n s) (fun i => b_c r i * b_c r i)); [intros; nra|exact Hi]).
  assert (HB : b_w r i * b_w r i <= B) by (unfold B; apply (Properties_Blocks.sumn_term (l_n s) (fun i => b_w r i * b_w r i)); [intros; nra|exact Hi]).
  assert (PA : 0 <= A) by nra. assert (PB : 0 <= B) by nra.
  split; apply Rle_lt_trans with (2 := H); rewrite <- sqrt_Rsqr_abs; apply sqrt_le_1_alt; unfold Rsqr; lra.
Qed.
Theorem C115_accepted_step : forall (P : pf_problem) d pts solver a b, pf_time_step P d pts solver a = Some b ->
  let c := next (N:=RNum) (request_step (N:=RNum) (pfs_clock a) d) in
  let r := fst (pf_residual P pts c (pfs_cur a) (pfs_old a) (pfs_cur b)) in
  exists solves, (solves <= pp_max P)%nat /\
    (pfs_cur b = iterate (pf_residual P pts c (pfs_cur a) (pfs_old a)) (b_distribute (pp_space P)) solver (b_extrapolated c (pfs_cur a) (pfs_old a)) solves) /\
    ((solves < pp_max P)%nat -> forall i, (i < l_n (pp_space P))%nat -> Rabs (b_c r i) < pp_tol P / 1000 /\ Rabs (b_w r i) < pp_tol P / 1000).
Proof.
  intros P d pts solver a b T c r. destruct (pf_step_shape P _ _ _ _ _ T) as (_ & _ & _ & _ & log & E). fold c in E.
  destruct (C66_newton_loop (pf_residual P pts c (pfs_cur a) (pfs_old a)) (b_norm (pp_space P)) (b_distribute (pp_space P)) solver (pp_tol P) (pp_max P)
    (b_extrapolated c (pfs_cur a) (pfs_old a))) as (V & log' & E' & HV). cbv zeta in HV. destruct HV as (HV & H2 & _ & H3 & H4 & _).
  rewrite E in E'. injection E' as <- <-. exists (nl_solves log). split; [exact H2|]. split; [exact HV|]. intros L.
  destruct (nl_converged log) eqn:K; [|specialize (H4 eq_refl); lia]. specialize (H3 eq_refl). rewrite <- HV in H3. fold r in H3.
  intros i Hi. assert (Q := b_norm_entries _ _ _ H3 i Hi). lra.
Qed.
Print Assumptions C115_accepted_step.

(** with a fixed time step the mass is exactly kept up to the last step before the end of the interval *)
Theorem C115_fixed_step : forall (P : pf_problem) (p : ts_params RNum) points pts solver initial a n b,
  pf_mesh P points pts n -> sensible p -> (Z.of_nat n < 4294967296)%Z -> (0 < pp_max P)%nat ->
  (forall m, (m < n)%nat -> divergence_free (pp_space P) (pts m)) -> exact_solves P fixed pts solver a n ->
  pf_setup p initial a -> pf_run P fixed pts solver a n b -> at_end (pfs_clock b) = false ->
  integral (pp_space P) points (b_c (pfs_cur b)) = integral (pp_space P) points (b_c initial).
Proof.
  intros P p points pts solver initial a n b (PU & Un & Hp) Sp Hn Hm Hd Hx [Ha E0] R Eb.
  set (M := fun U => integral (pp_space P) points (b_c U)).
  change (M (pfs_cur b) = M initial).
  enough (G : M (pfs_cur b) = M initial /\ ((0 < n)%nat -> M (pfs_old b) = M initial)) by exact (proj1 G).
  revert Hn Hp Hd Hx Eb. induction R as [|n b c R IH E T]; intros Hn Hp Hd Hx Eb.
  - rewrite E0. split; [reflexivity|lia].
  - destruct (IH ltac:(lia) (fun m H => Hp m ltac:(lia)) (fun m H => Hd m ltac:(lia)) (fun m b k H => Hx m b k ltac:(lia)) E) as (I1 & I2). clear IH.
    destruct (pf_run_clock P p fixed pts solver a (Datatypes.S n) c Ha (pr_step _ _ _ _ _ n b c R E T)) as [C1 L].
    destruct (flow_weights p fixed (fun _ => false) n Sp L Hn) as [Wp _]. rewrite <- C1 in Wp.
    pose proof (pf_step_balance P points fixed pts solver a n b c PU Un (Hp n ltac:(lia)) Hm (Hd n ltac:(lia)) Hx R T (Rgt_not_eq _ _ Wp)) as B. cbv zeta in B.
    change (w_new (clock_weights (pfs_clock c)) * M (pfs_cur c) + w_old (clock_weights (pfs_clock c)) * M (pfs_cur b) + (if w_use_old_old (clock_weights (pfs_clock c)) then w_old_old (clock_weights (pfs_clock c)) * M (pfs_old b) else 0) = 0) in B.
    clearbody M. destruct (pf_step_shape P _ _ _ _ _ T) as (_ & T2 & _).
    rewrite C1 in Eb, B.
    destruct (fixed_step_clock p (fun _ => false) (Datatypes.S n) Sp L Hn Eb) as (_ & W1 & W2 & W3).
    destruct (loop_facts p fixed (fun _ => false) (Datatypes.S n) Sp L Eb) as (_ & G2 & G3 & _).
    unfold clock_weights in B. cbn [w_new w_old w_old_old w_use_old_old] in B. unfold weight, weight_old, weight_old_old, ts_scheme, step_no in B.
    rewrite G2, G3, Z.mod_small in B by lia.
    specialize (W2 ltac:(lia)). rewrite T2. split; [|intros _; exact I1]. rewrite W1, W2 in B.
    assert (Hh : 0 < 1 / tp_step_start p) by (destruct Sp as (? & ? & _); apply Rdiv_lt_0_compat; lra).
    set (h := 1 / tp_step_start p) in *. clearbody h.
    destruct (scheme_eqb (tp_scheme p) bdf_2 && (1 <? Z.of_nat (Datatypes.S n))%Z) eqn:U.
    + rewrite (W3 eq_refl) in B. rewrite I2 in B.
      2: { apply andb_true_iff in U as [_ U]. apply Z.ltb_lt in U. lia. }
      rewrite I1 in B. apply (Rmult_eq_reg_l h); lra.
    + rewrite I1 in B. apply (Rmult_eq_reg_l h); lra.
Qed.
Print Assumptions C115_fixed_step.

(** ** A concrete run: one linear element on [0,1], a velocity that pushes both ends towards the middle; the first step moves the phase
    field from (1,-1) to (25/81,-25/81) *)
Definition pf_pts : list cpoint := [MkCP (ex_pt (1/4)) (fun _ => 1); MkCP (ex_pt (3/4)) (fun _ => -1)].
Definition pf_P : pf_problem := MkPfp Properties_LevelSetRun.ex_space [] (MkCH 1 1 (1/2) 0) true (1/1000) 1.
Definition pf_init : block2 := MkB2 ex_initial (fun _ => 0).
Definition pf_inc : block2 := MkB2 (ex_target (56/81)) (ex_target (-13/108)).
Definition pf_a : pf_state := MkPfs (ck_ns (setup_clocks (N:=RNum) ex_params)) pf_init pf_init pf_init.
Definition pf_solver : nat -> nat -> stored -> block2 -> block2 := fun _ _ _ _ => pf_inc.
Lemma extrapolated_same (c : clock RNum) (U : lvec) i : Model_LevelSetRun.extrapolated c U U i = U i.
Proof.
  unfold Model_LevelSetRun.extrapolated. match goal with |- context [Rltb 0 ?x] => destruct (Rltb 0 x) eqn:E end; [|reflexivity].
  apply Rltb_spec in E. change (0 < (old_step_size c : R)) in E. set (o := (old_step_size c : R)) in *. set (h := (step_size c : R)). clearbody o h.
  change ((h + o) / o * U i + - h / o * U i = U i). field. lra.
Qed.
Lemma pf_exact : exact_solves pf_P fixed (fun _ => pf_pts) pf_solver pf_a 1.
Proof.
  intros m b k Hm Hk R. assert (m = 0%nat) as -> by lia. cbn in Hk. assert (k = 0%nat) as -> by lia. inversion R; subst b. clear R. cbv zeta. cbn [iterate].
  change (fixed 0) with (@None R). cbn [request_step pf_a pfs_clock pfs_cur pfs_old].
  destruct (ex_weights 1 ltac:(lia)) as (W1 & W2 & W3 & _).
  destruct (ex_clock 1 ltac:(lia)) as (A & _ & _ & D).
  destruct (loop_sync ex_params fixed (fun _ => false) 1 ex_sensible D) as [_ E]. destruct (E A) as [EA _]. rewrite EA in W1, W2, W3. clear E EA A D.
  cbn [two_phase_loop] in W1, W2, W3. unfold two_phase_step in W1, W2, W3. cbn [ck_ns request_step] in W1, W2, W3. change (fixed 0) with (@None R) in W1, W2, W3. cbn [request_step Nat.eqb negb] in W1, W2, W3.
  unfold pf_residual. set (c := next _) in *.
  assert (G : forall i, b_c (b_extrapolated c pf_init pf_init) i = b_c pf_init i /\ b_w (b_extrapolated c pf_init pf_init) i = b_w pf_init i).
  { intros i. split; apply extrapolated_same. }
  set (g := b_extrapolated c pf_init pf_init) in *. clearbody g. set (w := clock_weights c) in *. clearbody w.
  intros i Hi. unfold pf_solver.
  destruct (ch_residual (pp_space pf_P) (pp_par pf_P) w pf_pts (pp_faces pf_P) (b_c pf_init) (b_c pf_init) g) as [rhs st] eqn:Er.
  unfold ch_residual in Er. injection Er as <- <-.
  destruct (G 0%nat) as [G1 G2]. destruct (G 1%nat) as [G3 G4]. cbn [pf_init b_c b_w ex_initial] in G1, G2, G3, G4.
  destruct w as [wn wo woo wu]. cbn [w_new w_old w_use_old_old] in *. subst wn wo wu.
  cbn [fst snd pp_space pp_par pf_P pp_faces ch_vmult b_c b_w Properties_LevelSetRun.ex_space l_con]. unfold contact_test. cbn [ch_contact].
  assert (Z : Model_PhaseField.Reqb 0 0 = true) by (apply Properties_PhaseField.Reqb_spec; reflexivity). rewrite Z.
  unfold ctest, lin0_val, lin0_flux, lin1_val, lin1_flux, res0_val, res0_flux, res1_val, res1_flux, factor_mobility, inv_time_weight, factor_2, factor_4. cbn.
  rewrite G1, G2, G3, G4. destruct i as [|[|i]]; [| |cbn in Hi; lia]; split; field.
Qed.
Example C115_nonvacuous : exists b, pf_mesh pf_P (map c_pt pf_pts) (fun _ => pf_pts) 1 /\ sensible ex_params /\ (0 < pp_max pf_P)%nat /\
  divergence_free (pp_space pf_P) pf_pts /\ exact_solves pf_P fixed (fun _ => pf_pts) pf_solver pf_a 1 /\ pf_setup ex_params pf_init pf_a /\
  pf_run pf_P fixed (fun _ => pf_pts) pf_solver pf_a 1 b /\ at_end (pfs_clock b) = false /\ b_c (pfs_cur b) 0%nat = 25/81.
Proof.
  destruct (pf_time_step pf_P None pf_pts (pf_solver 0) pf_a) as [b|] eqn:T; [|discriminate T].
  exists b. refine (conj _ (conj ex_sensible (conj _ (conj _ (conj pf_exact (conj _ (conj _ (conj _ _)))))))).
  - split; [exact (proj1 (ex_mesh false))|]. split; [intros i _; reflexivity|]. intros; reflexivity.
  - cbn. lia.
  - intros j _. cbn. destruct j; lra.
  - split; reflexivity.
  - apply (pr_step _ _ _ _ _ 0 pf_a b); [apply pr_start|exact (proj1 (ex_clock 0 ltac:(lia)))|exact T].
  - destruct (pf_step_shape _ _ _ _ _ _ T) as (E & _). rewrite E. exact (proj1 (ex_clock 1 ltac:(lia))).
  - unfold pf_time_step in T. cbn [pp_newton pp_max pf_P advance_cahn_hilliard newton_loop Nat.eqb negb andb] in T.
    destruct (pf_residual _ _ _ _ _) as [rhs st]. injection T as <-. cbn [pfs_cur b_sub b_c b_distribute pf_solver]. unfold ldistribute, lmask. cbn [l_con Properties_LevelSetRun.ex_space pp_space pf_inc b_c].
    cbn [b_extrapolated b_c pfs_cur pfs_old pf_a]. rewrite extrapolated_same. cbn. lra.
Qed.
