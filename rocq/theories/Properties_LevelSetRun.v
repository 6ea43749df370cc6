(** * C109: the volume of the phases over a whole run of the level set solver *)
From Coq Require Import ZArith QArith Reals Lra Lia List Bool.
From Verif Require Import Num Model_TimeStepping Spec_TimeStepping Proofs_TimeStepping Proofs_TimeStepping2
  Model_TwoPhaseClocks Properties_TwoPhaseClocks SumR Model_Bubble Properties_Bubble Model_LevelSetOps Properties_LevelSetOps Model_LevelSetRun.
Import ListNotations.
Local Open Scope R_scope.

(** ** Specification *)
(** integral of the level set function; the volume of the fluid with level set +1 is (integral + measure of the domain) / 2 *)
Definition measure (s : lspace) (pts : list lpoint) : R := suml pts l_JxW.
Definition volume (s : lspace) (pts : list lpoint) (U : lvec) : R := suml pts (fun p => l_JxW p * ((1 + lvalue s p U) / 2)).
(** the velocity of a step has no divergence as seen by the functions of the level set space: int u . grad phi_j = 0 for all j
    (incompressible and no flow through the boundary) *)
Definition solenoidal (s : lspace) (field : list apoint) : Prop :=
  forall j, (j < l_n s)%nat -> suml field (fun a => l_JxW (a_point a) * sumn (l_dim s) (fun d => a_vel a d * l_grad (a_point a) j d)) = 0.
(** no stabilization, or all boundaries are symmetry boundaries *)
Definition no_boundary_flux (P : ls_problem) (faces : list fpoint) : Prop := lp_stab P = false \/ faces = [].
Definition mesh_ok (P : ls_problem) : Prop :=
  partition_of_unity (lp_space P) (lp_points P) /\ unconstrained (lp_space P) /\ (0 < l_dim (lp_space P))%nat /\
  0 < lp_edge P /\ 0 < lp_subdivisions P.

(** ** One advection step *)
(** the balance of a step with any (also inexact) increment: the weighted integrals balance up to the transport term, the boundary term
    of the stabilization and the residual of the linear solver *)
Theorem C109_balance : forall (s : lspace) (stab : bool) (w : weights) (field : list apoint) (faces : list fpoint) (guess c_old c_old_old increment : lvec),
  partition_of_unity s (map a_point field) -> partition_of_unity s (map f_point faces) -> unconstrained s ->
  let c := advance_result s guess increment in
  let pts := map a_point field in
  w_new w * integral s pts c + w_old w * integral s pts c_old + (if w_use_old_old w then w_old_old w * integral s pts c_old_old else 0)
  = - suml field (fun a => l_JxW (a_point a) * sumn (l_dim s) (fun d => a_vel a d * lgradient s (a_point a) c d))
    + (if stab then suml faces (fun f => l_JxW (f_point f) * f_visc f * sumn (l_dim s) (fun d => f_normal f d * lgradient s (f_point f) c d)) else 0)
    - sumn (l_n s) (fun i => advance_rhs s stab w field faces guess c_old c_old_old i - advance_vmult s stab (w_new w) field faces increment i).
Proof.
  intros s stab w field faces guess co coo inc [P1 P2] [F1 F2] U c pts.
  assert (M : forall j, (j < l_n s)%nat -> ldistribute s inc j = inc j) by (intros j Hj; unfold ldistribute, lmask; rewrite U by exact Hj; reflexivity).
  assert (E : sumn (l_n s) (fun i => advance_rhs s stab w field faces guess co coo i - advance_vmult s stab (w_new w) field faces inc i)
    = - sumn (l_n s) (fun i => advection_residual s stab w field faces c co coo i)).
  { rewrite <- sumn_opp. apply sumn_ext. intros i Hi. rewrite rhs_free by (apply U; exact Hi).
    rewrite (vmult_free s stab (w_new w) field faces inc i (U i Hi)).
    2: { intros j Hj K. rewrite U in K by exact Hj. discriminate K. }
    unfold c, advance_result. rewrite residual_add. rewrite (linear_ext s stab (w_new w) field faces _ inc i M). ring. }
  rewrite E. clear E. unfold advection_residual. rewrite sumn_minus, <- suml_sumn.
  assert (A : sumn (l_n s) (fun i => if stab then suml faces (fun f => l_JxW (f_point f) * f_visc f * sumn (l_dim s) (fun d => f_normal f d * lgradient s (f_point f) c d) * l_shape (f_point f) i) else 0)
    = if stab then suml faces (fun f => l_JxW (f_point f) * f_visc f * sumn (l_dim s) (fun d => f_normal f d * lgradient s (f_point f) c d)) else 0).
  { destruct stab; [|apply sumn_zero; reflexivity]. rewrite <- suml_sumn. apply suml_ext. intros f Hf. rewrite sumn_scal, F1 by (apply in_map; exact Hf). ring. }
  rewrite A. clear A.
  match goal with |- ?L = - ?T + ?F - - (?S - ?F') => enough (S = L + T) by lra end.
  unfold pts, integral. rewrite !suml_map.
  transitivity (suml field (fun a => w_new w * (l_JxW (a_point a) * lvalue s (a_point a) c) + w_old w * (l_JxW (a_point a) * lvalue s (a_point a) co)
     + (if w_use_old_old w then w_old_old w * (l_JxW (a_point a) * lvalue s (a_point a) coo) else 0)
     + l_JxW (a_point a) * sumn (l_dim s) (fun d => a_vel a d * lgradient s (a_point a) c d))).
  - apply suml_ext. intros a Ha. cbv zeta. rewrite sumn_scal, sumn_plus, sumn_scal, P1 by (apply in_map; exact Ha).
    assert (Z : sumn (l_n s) (fun i => if stab then a_visc a * sumn (l_dim s) (fun d => lgradient s (a_point a) c d * l_grad (a_point a) i d) else 0) = 0).
    { destruct stab; [|apply sumn_zero; reflexivity]. rewrite sumn_scal, sumn_swap.
      rewrite (sumn_zero (l_dim s)); [ring|]. intros d Hd. rewrite sumn_scal, P2 by (try apply in_map; assumption). ring. }
    rewrite Z. destruct (w_use_old_old w); ring.
  - rewrite suml_plus. f_equal. destruct (w_use_old_old w).
    + rewrite !suml_plus, !suml_scal. reflexivity.
    + rewrite !suml_plus, !suml_scal. rewrite (suml_zero field (fun _ => 0)) by reflexivity. reflexivity.
Qed.
Print Assumptions C109_balance.

(** with solenoidal velocity the transport term vanishes *)
Lemma transport_zero s field c : solenoidal s field ->
  suml field (fun a => l_JxW (a_point a) * sumn (l_dim s) (fun d => a_vel a d * lgradient s (a_point a) c d)) = 0.
Proof.
  intros H. transitivity (sumn (l_n s) (fun j => c j * suml field (fun a => l_JxW (a_point a) * sumn (l_dim s) (fun d => a_vel a d * l_grad (a_point a) j d)))).
  - rewrite (sumn_ext _ _ (fun j => suml field (fun a => c j * (l_JxW (a_point a) * sumn (l_dim s) (fun d => a_vel a d * l_grad (a_point a) j d))))) by (intros; rewrite suml_scal; reflexivity).
    rewrite <- suml_sumn. apply suml_ext. intros a _. unfold lgradient.
    rewrite (sumn_ext (l_dim s) _ (fun d => sumn (l_n s) (fun j => c j * (a_vel a d * l_grad (a_point a) j d)))).
    2: { intros d _. rewrite <- sumn_scal. apply sumn_ext. intros; ring. }
    rewrite sumn_swap, <- sumn_scal. apply sumn_ext. intros j _. rewrite sumn_scal. ring.
  - apply sumn_zero. intros j Hj. rewrite H by exact Hj. ring.
Qed.

(** ** Reinitialization *)
Lemma dtau_positive P c dt : mesh_ok P -> 0 < pseudo_step P c dt.
Proof.
  intros (_ & _ & D & E & S). unfold pseudo_step, dtau_inv. eapply Rlt_le_trans; [|apply Rmax_l].
  assert (0 < INR (l_dim (lp_space P))) by (apply lt_0_INR; exact D).
  apply Rdiv_lt_0_compat; [lra|]. apply Rdiv_lt_0_compat; [|exact S]. apply Rmult_lt_0_compat; [|exact E]. apply Rdiv_lt_0_compat; [lra|]. nra.
Qed.
Lemma reinit_keeps P dti U V : mesh_ok P -> 0 < dti -> reinit_steps P dti U V ->
  integral (lp_space P) (lp_points P) V = integral (lp_space P) (lp_points P) U.
Proof.
  intros (A & B & _) D R. induction R; [reflexivity|]. rewrite IHR.
  apply (proj2 (C42_step (lp_space P) (lp_points P) dti (lp_eps P) (lp_degree P) diffuse_only n U inc A B D H)).
Qed.

(** ** One time step *)
Lemma time_step_balance P d sm field faces a b : mesh_ok P -> solenoidal (lp_space P) field -> no_boundary_flux P faces ->
  ls_time_step P d sm field faces a b ->
  let M U := integral (lp_space P) (lp_points P) U in
  let w := clock_weights (ck_adv (lss_clocks b)) in
  w_new w * M (lss_cur b) + w_old w * M (lss_cur a) + (if w_use_old_old w then w_old_old w * M (lss_old a) else 0) = 0.
Proof.
  intros K S N (Hp & Hk & _ & _ & inc & first & Hs & R1 & R2) M w.
  pose proof K as (PU & U & _).
  set (k := two_phase_step (N:=RNum) d sm (lss_clocks a)) in *. set (dt := step_size (ck_ns k)) in *.
  set (guess := extrapolated (ck_ns k) (lss_cur a) (lss_old a)) in *.
  assert (E : M (lss_cur b) = M (advance_result (lp_space P) guess inc)).
  { unfold M. rewrite <- (reinit_keeps P _ _ _ K (dtau_positive P _ dt K) R1). destruct sm.
    - apply (reinit_keeps P _ _ _ K (dtau_positive P _ dt K) R2).
    - rewrite R2. reflexivity. }
  rewrite E. unfold w. rewrite Hk. fold k. set (w' := clock_weights (ck_adv k)) in *.
  set (faces' := if lp_stab P then faces else []).
  assert (EF : forall i x y z, advance_rhs (lp_space P) (lp_stab P) w' field faces x y z i = advance_rhs (lp_space P) (lp_stab P) w' field faces' x y z i).
  { intros. unfold advance_rhs, faces'. destruct (lp_stab P); reflexivity. }
  assert (EV : forall i x, advance_vmult (lp_space P) (lp_stab P) (w_new w') field faces x i = advance_vmult (lp_space P) (lp_stab P) (w_new w') field faces' x i).
  { intros. unfold advance_vmult, faces'. destruct (lp_stab P); reflexivity. }
  assert (NF : faces' = []) by (unfold faces'; destruct N as [->| ->]; [reflexivity|destruct (lp_stab P); reflexivity]).
  pose proof (C109_balance (lp_space P) (lp_stab P) w' field faces' guess (lss_cur a) (lss_old a) inc) as B.
  rewrite Hp, NF in B. specialize (B PU). cbv zeta in B. rewrite transport_zero in B by exact S.
  unfold M. rewrite B; [|split; [intros ? []|intros ? ? []]|exact U].
  cbn [suml]. rewrite sumn_zero.
  - destruct (lp_stab P); ring.
  - intros i Hi. specialize (Hs i Hi). rewrite EF, EV, NF in Hs. rewrite Hs. ring.
Qed.
Print Assumptions time_step_balance.

(** ** The clocks *)
Lemma clock_step (c : clock RNum) (s : R) : settled c -> at_end c = false -> now_val c < final_val c ->
  min_step_val c <= s <= max_step_val c ->
  (0 < next_step (with_step c s) <= 101 / 100 * s) /\
  (not_at_start c = true -> next_last (with_step c s) = s) /\
  (at_end (next (with_step c s)) = false -> now_val (next (with_step c s)) < final_val (next (with_step c s))) /\
  now_val c < now_val (next (with_step c s)).
Proof.
  intros S E L B. pose proof S as (S1 & S2 & S3).
  pose proof (settled_next_s _ (with_settled c s S2 B)) as Ns. cbn [with_step current_step_val] in Ns.
  pose proof (hits_with c s S2 B E) as Hs.
  unfold at_end in *. cbn [next at_end_val now_val final_val]. unfold next_step, next_time, next_last. rewrite Hs, Ns.
  cbn [with_step now_val final_val at_end_val current_step_val last_step_val]. rewrite E.
  change (not_at_start (with_step c s)) with (not_at_start c).
  refine (conj _ (conj _ (conj _ _))).
  - destruct (Num.Rltb_spec (final_val c - 1/100 * s) (now_val c + s)); rnum; lra.
  - intros ->. reflexivity.
  - destruct (Num.Rltb_spec (final_val c - 1/100 * s) (now_val c + s)); cbn [orb]; [discriminate|]. intros _. rnum. lra.
  - destruct (Num.Rltb_spec (final_val c - 1/100 * s) (now_val c + s)); rnum; lra.
Qed.

Lemma loop_facts (p : ts_params RNum) ds sm n : sensible p -> legal_run ds sm n (setup_clocks p) ->
  let c := ck_ns (two_phase_loop (N:=RNum) ds sm n (setup_clocks p)) in
  at_end c = false ->
  now_val c < final_val c /\ step_no_val c = (Z.of_nat n mod 4294967296)%Z /\ scheme_val c = tp_scheme p /\ start_val c = tp_start p /\
  (n = 0%nat -> now_val c = tp_start p) /\ ((0 < n)%nat -> tp_start p < now_val c).
Proof.
  intros Sp. induction n as [|n IH]; intros L c E.
  - unfold c. cbn [two_phase_loop]. rewrite (proj1 (setup_sync p Sp)). destruct Sp as (A & B & C). cbn.
    refine (conj _ (conj eq_refl (conj eq_refl (conj eq_refl (conj (fun _ => eq_refl) _))))); [|lia].
    assert (0 < tp_step_start p / 100000000000000) by (apply Rdiv_lt_0_compat; lra). lra.
  - assert (L' : legal_run ds sm n (setup_clocks p)) by (intros m Hm; apply L; lia).
    assert (E0 : at_end (ck_ns (two_phase_loop (N:=RNum) ds sm n (setup_clocks p))) = false) by (apply L; lia).
    destruct (loop_sync p ds sm n Sp L') as [_ A]. destruct (A E0) as [_ S0]. clear A.
    destruct (IH L' E0) as (I1 & I2 & I3 & I4 & I5 & I6). clear IH.
    unfold c in *. cbn [two_phase_loop] in *. unfold two_phase_step in *. cbn [ck_ns] in *.
    set (c0 := ck_ns (two_phase_loop (N:=RNum) ds sm n (setup_clocks p))) in *. clearbody c0.
    destruct (request_settled c0 (ds n) S0) as (s & R1 & R2 & _). rewrite R1 in *.
    destruct (clock_step c0 s S0 E0 I1 R2) as (_ & _ & K3 & K4).
    refine (conj (K3 E) (conj _ (conj I3 (conj I4 (conj _ _))))).
    + cbn [next step_no_val with_step]. rewrite I2. rewrite Zplus_mod_idemp_l. f_equal. lia.
    + discriminate.
    + intros _. destruct (Nat.eq_dec n 0) as [Z|Z]; [rewrite <- (I5 Z); exact K4|]. specialize (I6 ltac:(lia)). lra.
Qed.

(** the weights the advection operator uses in step n + 1 *)
Lemma advection_weights (p : ts_params RNum) ds sm n : sensible p -> legal_run ds sm (S n) (setup_clocks p) -> (Z.of_nat (S n) < 4294967296)%Z ->
  let w := clock_weights (ck_adv (two_phase_loop (N:=RNum) ds sm (S n) (setup_clocks p))) in
  (w_use_old_old w = false /\
     exists cur, 0 < cur /\ w_old w = - (1 / cur) /\ Rabs (w_new w - 1 / cur) <= 1 / cur / 1000000000000) \/
  ((0 < n)%nat /\ w_use_old_old w = true /\
     exists cur last, 0 < cur <= 101 / 100 * last /\
       w_old w = - ((cur + last) / (cur * last)) /\ w_old_old w = cur / (last * (cur + last)) /\
       Rabs (w_new w - (2 * cur + last) / (cur * (cur + last))) <= (2 * cur + last) / (cur * (cur + last)) / 1000000000000).
Proof.
  intros Sp L Hn w.
  assert (L' : legal_run ds sm n (setup_clocks p)) by (intros m Hm; apply L; lia).
  assert (E0 : at_end (ck_ns (two_phase_loop (N:=RNum) ds sm n (setup_clocks p))) = false) by (apply L; lia).
  destruct (loop_sync p ds sm n Sp L') as [_ A]. destruct (A E0) as [EA S0]. clear A.
  destruct (loop_facts p ds sm n Sp L' E0) as (I1 & I2 & I3 & I4 & I5 & I6).
  unfold w. cbn [two_phase_loop]. unfold two_phase_step. cbn [ck_adv]. rewrite EA. unfold advance_concentration_clock, set_desired_time_step.
  set (dt := step_size (next (request_step _ _))). clearbody dt.
  set (c := ck_ns (two_phase_loop (N:=RNum) ds sm n (setup_clocks p))) in *. clearbody c. clear w EA.
  pose proof S0 as (S1 & S2 & S3).
  destruct (desired_spec c dt S2 S3) as (D1 & _). set (s := desired_step c dt) in *. clearbody s.
  destruct (clock_step c s S0 E0 I1 D1) as (K1 & K2 & _ & _).
  assert (NA : not_at_start c = negb (Nat.eqb n 0)).
  { unfold not_at_start. rewrite I4. destruct (Nat.eqb_spec n 0) as [Z|Z]; cbn [negb].
    - apply negb_false_iff. rnum. apply Num.Reqb_true. exact (I5 Z).
    - apply negb_true_iff. rnum. apply Num.Reqb_false. specialize (I6 ltac:(lia)). lra. }
  assert (SN : (1 <? step_no (next (with_step c s)))%Z = negb (Nat.eqb n 0)).
  { unfold step_no. cbn [next step_no_val with_step]. rewrite I2, Zplus_mod_idemp_l.
    rewrite Z.mod_small by lia. destruct (Nat.eqb_spec n 0) as [Z|Z]; cbn [negb]; [apply Z.ltb_ge|apply Z.ltb_lt]; lia. }
  assert (UB : next_uses_bdf (with_step c s) = w_use_old_old (clock_weights (next (with_step c s)))).
  { unfold next_uses_bdf, clock_weights. cbn [w_use_old_old]. rewrite SN. unfold ts_scheme. cbn [next scheme_val with_step].
    change (not_at_start (with_step c s)) with (not_at_start c). rewrite NA. reflexivity. }
  rewrite <- UB. unfold clock_weights. cbn [w_new w_old w_old_old].
  pose proof (weight_close (with_step c s)) as WC.
  unfold weight_old, weight_old_old. cbn [next weight_old_val weight_old_old_val]. unfold next_weight_old, next_weight_old_old, next_new_weight in *.
  destruct (next_uses_bdf (with_step c s)) eqn:U.
  - right. assert (N0 : not_at_start c = true).
    { unfold next_uses_bdf in U. apply andb_true_iff in U as [_ U]. exact U. }
    rewrite NA in N0. destruct (Nat.eqb_spec n 0) as [Z|Z]; [discriminate N0|]. split; [lia|]. split; [reflexivity|].
    rewrite (K2 ltac:(rewrite NA; destruct (Nat.eqb_spec n 0); [lia|reflexivity])) in *.
    exists (next_step (with_step c s)), s. rnum. q2r.
    set (cur := next_step (with_step c s)) in *. clearbody cur. split; [exact K1|]. split; [reflexivity|]. split; [reflexivity|].
    assert (P : 0 < (2 * cur + s) / (cur * (cur + s))) by (apply Rdiv_lt_0_compat; [lra|apply Rmult_lt_0_compat; lra]).
    replace (2 * / 1 * cur + s) with (2 * cur + s) in WC by (rewrite Rinv_1; ring). apply WC. exact P.
  - left. split; [reflexivity|]. exists (next_step (with_step c s)). rnum. q2r.
    set (cur := next_step (with_step c s)) in *. clearbody cur. split; [lra|]. split; [field; lra|].
    replace (1 * / 1 / cur) with (1 / cur) in WC by (rewrite Rinv_1, Rmult_1_r; reflexivity). apply WC. apply Rdiv_lt_0_compat; lra.
Qed.

(** ** The recursion for the integrals *)
Definition tiny : R := 1 / 1000000000000.
Definition rho : R := 1 + 2 * tiny.
Lemma recursion v w t D a b : 0 < v -> Rabs (w - v) <= v / 1000000000000 -> 0 <= t <= 34 / 100 * v -> w * D = (v - w) * a + t * b ->
  Rabs D <= 11 / 10 * tiny * Rabs a + 35 / 100 * Rabs b.
Proof.
  intros Hv Hw Ht E. assert (W : v * (1 - tiny) <= w /\ Rabs (v - w) <= v * tiny).
  { rewrite Rabs_minus_sym in Hw. unfold tiny. split; [|lra]. pose proof (Rle_abs (v - w)). lra. }
  destruct W as [W1 W2]. assert (T0 : 0 < tiny < 1 / 1000) by (unfold tiny; lra).
  assert (Pw : 0 < w) by nra.
  assert (A : w * Rabs D <= v * tiny * Rabs a + 34 / 100 * v * Rabs b).
  { rewrite <- (Rabs_pos_eq w) at 1 by lra. rewrite <- Rabs_mult, E. eapply Rle_trans; [apply Rabs_triang|]. rewrite !Rabs_mult. rewrite (Rabs_pos_eq t) by lra.
    pose proof (Rabs_pos a). pose proof (Rabs_pos b). apply Rplus_le_compat; apply Rmult_le_compat_r; lra. }
  pose proof (Rabs_pos a) as Pa. pose proof (Rabs_pos b) as Pb. pose proof (Rabs_pos D) as PD.
  set (x := Rabs D) in *. set (y := Rabs a) in *. set (z := Rabs b) in *. clearbody x y z. clear E D a b.
  assert (B : v * (1 - tiny) * x <= v * tiny * y + 34 / 100 * v * z) by (eapply Rle_trans; [|exact A]; apply Rmult_le_compat_r; lra).
  assert (C : (1 - tiny) * x <= tiny * y + 34 / 100 * z) by (apply (Rmult_le_reg_l v); [exact Hv|]; lra).
  assert (F1 : 0 <= tiny * y) by nra.
  assert (F2 : tiny * y <= (1 - tiny) * (11 / 10 * tiny * y)).
  { replace ((1 - tiny) * (11 / 10 * tiny * y)) with (tiny * y * (11 / 10 * (1 - tiny))) by ring. rewrite <- (Rmult_1_r (tiny * y)) at 1. apply Rmult_le_compat_l; lra. }
  assert (F3 : 34 / 100 * z <= (1 - tiny) * (35 / 100 * z)) by nra.
  apply (Rmult_le_reg_l (1 - tiny)); [lra|]. lra.
Qed.
Lemma bdf_recursion w cur last m1 m0 mo : 0 < cur <= 101 / 100 * last ->
  Rabs (w - (2 * cur + last) / (cur * (cur + last))) <= (2 * cur + last) / (cur * (cur + last)) / 1000000000000 ->
  w * m1 + - ((cur + last) / (cur * last)) * m0 + cur / (last * (cur + last)) * mo = 0 ->
  Rabs (m1 - m0) <= 11 / 10 * tiny * Rabs m0 + 35 / 100 * Rabs (m0 - mo).
Proof.
  intros [H1 H2] Hw E. assert (Hl : 0 < last) by lra.
  apply (recursion ((2 * cur + last) / (cur * (cur + last))) w (cur / (last * (cur + last)))).
  - apply Rdiv_lt_0_compat; [lra|]. apply Rmult_lt_0_compat; lra.
  - exact Hw.
  - split.
    + apply Rlt_le, Rdiv_lt_0_compat; [lra|]. apply Rmult_lt_0_compat; lra.
    + apply (Rmult_le_reg_r (cur * last * (cur + last))); [apply Rmult_lt_0_compat; [apply Rmult_lt_0_compat; lra|lra]|].
      replace (cur / (last * (cur + last)) * (cur * last * (cur + last))) with (cur * cur) by (field; lra).
      replace (34 / 100 * ((2 * cur + last) / (cur * (cur + last))) * (cur * last * (cur + last))) with (34 / 100 * ((2 * cur + last) * last)) by (field; lra).
      assert (0 <= (101 / 100 * last - cur) * (cur + 33 / 100 * last)) by (apply Rmult_le_pos; lra). nra.
  - assert (S : (cur + last) / (cur * last) = (2 * cur + last) / (cur * (cur + last)) + cur / (last * (cur + last))) by (field; lra).
    rewrite S in E. lra.
Qed.
Lemma euler_recursion w cur m1 m0 : 0 < cur -> Rabs (w - 1 / cur) <= 1 / cur / 1000000000000 -> w * m1 + - (1 / cur) * m0 = 0 ->
  Rabs (m1 - m0) <= 11 / 10 * tiny * Rabs m0.
Proof.
  intros Hc Hw E. assert (0 < 1 / cur) by (apply Rdiv_lt_0_compat; lra).
  pose proof (recursion (1 / cur) w 0 (m1 - m0) m0 0 H Hw) as K. rewrite Rabs_R0 in K. 
  assert (Rabs (m1 - m0) <= 11 / 10 * tiny * Rabs m0 + 35 / 100 * 0); [|lra]. apply K; lra.
Qed.

Lemma run_clocks P p ds sm field faces a n b : lss_clocks a = setup_clocks (N:=RNum) p -> ls_run P ds sm field faces a n b ->
  lss_clocks b = two_phase_loop (N:=RNum) ds sm n (setup_clocks p) /\ legal_run ds sm n (setup_clocks p).
Proof.
  intros Ha R. induction R as [|n b c R [I1 I2] E T].
  - split; [exact Ha|]. intros m Hm. lia.
  - split.
    + destruct T as (_ & T & _). rewrite T, I1. reflexivity.
    + intros m Hm. destruct (Nat.eq_dec m n) as [->|Hne]; [rewrite <- I1; exact E|]. apply I2. lia.
Qed.

(** ** C109 *)
(** over the whole run, for every number of steps, every history of step size requests and every velocity without divergence, the integral
    of the level set function changes at most by 2e-12 relative per step - the weight changes that the clock ignores *)
Theorem C109_volume : forall (P : ls_problem) (p : ts_params RNum) ds sm field faces initial a n b,
  mesh_ok P -> sensible p -> (Z.of_nat n < 4294967296)%Z ->
  (forall m, (m < n)%nat -> solenoidal (lp_space P) (field m) /\ no_boundary_flux P (faces m)) ->
  ls_setup P p initial a -> ls_run P ds sm field faces a n b ->
  let M U := integral (lp_space P) (lp_points P) U in
  Rabs (M (lss_cur b) - M initial) <= ((1 + 2 / 1000000000000) ^ n - 1) * Rabs (M initial).
Proof.
  intros P p ds sm field faces initial a n b K Sp Hn Hf [Ha R0] R M.
  assert (E0 : M (lss_cur a) = M initial) by (apply (reinit_keeps P _ _ _ K (dtau_positive P _ _ K) R0)).
  set (mu := Rabs (M initial)). assert (Hmu : 0 <= mu) by apply Rabs_pos.
  replace (1 + 2 / 1000000000000) with rho by (unfold rho, tiny; lra).
  assert (T0 : 0 < tiny < 1 / 1000) by (unfold tiny; lra).
  assert (Q1 : 1 <= rho) by (unfold rho; lra).
  assert (QP : forall k, 1 <= rho ^ k) by (intros k; apply pow_R1_Rle; exact Q1).
  enough (G : Rabs (M (lss_cur b)) <= mu * rho ^ n /\ Rabs (M (lss_cur b) - M initial) <= (rho ^ n - 1) * mu /\
    (forall m, n = Datatypes.S m -> Rabs (M (lss_cur b) - M (lss_old b)) <= 2 * tiny * mu * rho ^ m)) by (destruct G as (_ & G & _); exact G).
  revert Hn Hf. induction R as [|n b c R IH E T]; intros Hn Hf.
  - rewrite E0. cbn [pow]. fold mu. replace (M initial - M initial) with 0 by ring. rewrite Rabs_R0. split; [lra|]. split; [lra|]. intros m Hm. discriminate Hm.
  - destruct (IH ltac:(lia) (fun m Hm => Hf m ltac:(lia))) as (I1 & I2 & I3). clear IH.
    destruct (run_clocks P p ds sm field faces a n b Ha R) as [C1 C2].
    destruct (Hf n ltac:(lia)) as [F1 F2].
    assert (L : legal_run ds sm (Datatypes.S n) (setup_clocks p)).
    { intros m Hm. destruct (Nat.eq_dec m n) as [->|Hne]; [rewrite <- C1; exact E|]. apply C2. lia. }
    pose proof (time_step_balance P (ds n) (sm n) (field n) (faces n) b c K F1 F2 T) as B. cbv zeta in B. change (w_new (clock_weights (ck_adv (lss_clocks c))) * M (lss_cur c) + w_old (clock_weights (ck_adv (lss_clocks c))) * M (lss_cur b) + (if w_use_old_old (clock_weights (ck_adv (lss_clocks c))) then w_old_old (clock_weights (ck_adv (lss_clocks c))) * M (lss_old b) else 0) = 0) in B.
    clearbody M.
    destruct T as (_ & T1 & T2 & _). rewrite T1, C1 in B.
    change (two_phase_step (N:=RNum) (ds n) (sm n) (two_phase_loop (N:=RNum) ds sm n (setup_clocks p))) with (two_phase_loop (N:=RNum) ds sm (Datatypes.S n) (setup_clocks p)) in B.
    pose proof (advection_weights p ds sm n Sp L Hn) as W. cbv zeta in W.
    set (w := clock_weights (ck_adv (two_phase_loop (N:=RNum) ds sm (Datatypes.S n) (setup_clocks p)))) in *. clearbody w.
    assert (D : Rabs (M (lss_cur c) - M (lss_cur b)) <= 2 * tiny * mu * rho ^ n).
    { destruct W as [(U & cur & W1 & W2 & W3)|(N0 & U & cur & last & W1 & W2 & W3 & W4)]; rewrite U in B.
      - rewrite W2, Rplus_0_r in B. assert (X : Rabs (M (lss_cur c) - M (lss_cur b)) <= 11 / 10 * tiny * Rabs (M (lss_cur b))) by exact (euler_recursion _ _ _ _ W1 W3 B).
        assert (11 / 10 * tiny * Rabs (M (lss_cur b)) <= 11 / 10 * tiny * (mu * rho ^ n)) by (apply Rmult_le_compat_l; lra).
        assert (0 <= tiny * (mu * rho ^ n)) by (apply Rmult_le_pos; [lra|apply Rmult_le_pos; [lra|specialize (QP n); lra]]). lra.
      - rewrite W2, W3 in B. assert (X : Rabs (M (lss_cur c) - M (lss_cur b)) <= 11 / 10 * tiny * Rabs (M (lss_cur b)) + 35 / 100 * Rabs (M (lss_cur b) - M (lss_old b))) by exact (bdf_recursion _ _ _ _ _ _ W1 W4 B). destruct n as [|m]; [lia|].
        specialize (I3 m eq_refl).
        assert (11 / 10 * tiny * Rabs (M (lss_cur b)) <= 11 / 10 * tiny * (mu * rho ^ Datatypes.S m)) by (apply Rmult_le_compat_l; lra).
        assert (Y : 2 * tiny * mu * rho ^ m <= 2 * tiny * mu * rho ^ Datatypes.S m).
        { apply Rmult_le_compat_l; [apply Rmult_le_pos; lra|]. cbn [pow]. specialize (QP m). nra. }
        assert (0 <= tiny * (mu * rho ^ Datatypes.S m)) by (apply Rmult_le_pos; [lra|apply Rmult_le_pos; [lra|specialize (QP (Datatypes.S m)); lra]]). lra. }
    refine (conj _ (conj _ _)).
    + replace (M (lss_cur c)) with (M (lss_cur b) + (M (lss_cur c) - M (lss_cur b))) by ring. eapply Rle_trans; [apply Rabs_triang|].
      cbn [pow]. replace (mu * (rho * rho ^ n)) with (mu * rho ^ n + 2 * tiny * mu * rho ^ n) by (unfold rho; ring). lra.
    + replace (M (lss_cur c) - M initial) with ((M (lss_cur b) - M initial) + (M (lss_cur c) - M (lss_cur b))) by ring. eapply Rle_trans; [apply Rabs_triang|].
      cbn [pow]. replace ((rho * rho ^ n - 1) * mu) with ((rho ^ n - 1) * mu + 2 * tiny * mu * rho ^ n) by (unfold rho; ring). lra.
    + intros m Hm. injection Hm as <-. rewrite T2. exact D.
Qed.
Print Assumptions C109_volume.

(** ** Fixed time step: no drift at all *)
(** no step size requests *)
Definition fixed : nat -> option R := fun _ => None.
Lemma fixed_step_clock (p : ts_params RNum) sm n : sensible p -> legal_run fixed sm n (setup_clocks p) -> (Z.of_nat n < 4294967296)%Z ->
  let c := ck_ns (two_phase_loop (N:=RNum) fixed sm n (setup_clocks p)) in
  at_end c = false ->
  current_step_val c = tp_step_start p /\
  weight_val c = (if scheme_eqb (tp_scheme p) bdf_2 && (1 <? Z.of_nat n)%Z then 3 / 2 * (1 / tp_step_start p) else 1 / tp_step_start p) /\
  ((0 < n)%nat -> weight_old_val c = (if scheme_eqb (tp_scheme p) bdf_2 && (1 <? Z.of_nat n)%Z then - 2 * (1 / tp_step_start p) else - (1 / tp_step_start p))) /\
  (scheme_eqb (tp_scheme p) bdf_2 && (1 <? Z.of_nat n)%Z = true -> weight_old_old_val c = 1 / 2 * (1 / tp_step_start p)).
Proof.
  intros Sp. assert (Hh : 0 < tp_step_start p) by (destruct Sp as (? & ? & _); lra).
  induction n as [|n IH]; intros L Hn c E.
  - unfold c. cbn [two_phase_loop]. rewrite (proj1 (setup_sync p Sp)). cbn. rewrite andb_false_r. rnum. split; [reflexivity|]. split; [|split; [lia|discriminate]].
    unfold Q2R. cbn. field. lra.
  - assert (L' : legal_run fixed sm n (setup_clocks p)) by (intros m Hm; apply L; lia).
    assert (E0 : at_end (ck_ns (two_phase_loop (N:=RNum) fixed sm n (setup_clocks p))) = false) by (apply L; lia).
    destruct (loop_sync p fixed sm n Sp L') as [_ A]. destruct (A E0) as [_ S0]. clear A.
    destruct (loop_facts p fixed sm n Sp L' E0) as (I1 & I2 & I3 & I4 & I5 & I6).
    destruct (IH L' ltac:(lia) E0) as (J1 & J2 & _ & _). clear IH.
    unfold c in *. cbn [two_phase_loop] in *. unfold two_phase_step in *. change (fixed n) with (@None R) in *. cbn [ck_ns request_step] in *.
    set (c0 := ck_ns (two_phase_loop (N:=RNum) fixed sm n (setup_clocks p))) in *. clearbody c0. clear c.
    assert (NA : not_at_start c0 = (0 <? Z.of_nat n)%Z).
    { unfold not_at_start. rewrite I4. destruct (Z.ltb_spec 0 (Z.of_nat n)) as [Z|Z].
      - apply negb_true_iff. rnum. apply Num.Reqb_false. specialize (I6 ltac:(lia)). lra.
      - apply negb_false_iff. rnum. apply Num.Reqb_true. apply I5. lia. }
    assert (HE : next_hits_end c0 = false) by (unfold at_end in E, E0; cbn [next at_end_val] in E; rewrite E0 in E; exact E).
    pose proof (settled_next_s c0 S0) as Ns. rewrite J1 in Ns.
    assert (NS : next_step c0 = tp_step_start p) by (unfold next_step; rewrite HE; exact Ns).
    assert (NL : (0 <? Z.of_nat n)%Z = true -> next_last c0 = tp_step_start p) by (intros Z; unfold next_last; rewrite NA, Z; exact J1).
    assert (UB : next_uses_bdf c0 = (scheme_eqb (tp_scheme p) bdf_2 && (1 <? Z.of_nat (Datatypes.S n))%Z)%bool).
    { unfold next_uses_bdf. rewrite I3, NA. f_equal. destruct (Z.ltb_spec 0 (Z.of_nat n)), (Z.ltb_spec 1 (Z.of_nat (Datatypes.S n))); try reflexivity; lia. }
    rewrite <- UB. cbn [next current_step_val weight_val weight_old_val weight_old_old_val].
    assert (NW : next_new_weight c0 = if next_uses_bdf c0 then 3 / 2 * (1 / tp_step_start p) else 1 / tp_step_start p).
    { unfold next_new_weight. rewrite NS. destruct (next_uses_bdf c0) eqn:U.
      - rewrite NL by (symmetry in UB; apply andb_true_iff in UB as [_ UB]; apply Z.ltb_lt in UB; apply Z.ltb_lt; lia). rnum. unfold Q2R. cbn. field. lra.
      - rnum. unfold Q2R. cbn. field. lra. }
    split; [exact NS|]. split; [|split].
    + destruct (next_weight_changes c0) eqn:X; [exact NW|]. rewrite J2.
      destruct (scheme_eqb (tp_scheme p) bdf_2 && (1 <? Z.of_nat n)%Z) eqn:Y.
      * assert (next_uses_bdf c0 = true) as ->; [|reflexivity]. rewrite UB. apply andb_true_iff in Y as [Y1 Y2]. rewrite Y1. apply Z.ltb_lt in Y2. cbn [andb]. apply Z.ltb_lt. lia.
      * destruct (next_uses_bdf c0) eqn:U; [|reflexivity]. exfalso.
        unfold next_weight_changes in X. rewrite NW, J2 in X. unfold ngtb in X. rnum. q2r. apply Num.Rltb_false in X.
        set (h := 1 / tp_step_start p) in *. assert (0 < h) by (unfold h; apply Rdiv_lt_0_compat; lra). clearbody h.
        rewrite Rabs_pos_eq in X by lra. assert (Z : (3 / 2 * h - h) / (3 / 2 * h) = 1 / 3) by (field; lra). rewrite Z in X. lra.
    + intros _. unfold next_weight_old. rewrite NS. destruct (next_uses_bdf c0) eqn:U.
      * rewrite NL by (symmetry in UB; apply andb_true_iff in UB as [_ UB]; apply Z.ltb_lt in UB; apply Z.ltb_lt; lia). rnum. field. lra.
      * rnum. unfold Q2R. cbn. field. lra.
    + intros U. unfold next_weight_old_old. rewrite NS, U. rewrite U in UB.
      rewrite NL by (symmetry in UB; apply andb_true_iff in UB as [_ UB]; apply Z.ltb_lt in UB; apply Z.ltb_lt; lia). rnum. field. lra.
Qed.
(** with a fixed time step the integral of the level set function, and so the volume of each fluid, is exactly kept up to the last step
    before the end of the interval *)
Theorem C109_fixed_step : forall (P : ls_problem) (p : ts_params RNum) sm field faces initial a n b,
  mesh_ok P -> sensible p -> (Z.of_nat n < 4294967296)%Z ->
  (forall m, (m < n)%nat -> solenoidal (lp_space P) (field m) /\ no_boundary_flux P (faces m)) ->
  ls_setup P p initial a -> ls_run P fixed sm field faces a n b ->
  at_end (ck_ns (lss_clocks b)) = false ->
  volume (lp_space P) (lp_points P) (lss_cur b) = volume (lp_space P) (lp_points P) initial /\
  integral (lp_space P) (lp_points P) (lss_cur b) = integral (lp_space P) (lp_points P) initial.
Proof.
  intros P p sm field faces initial a n b K Sp Hn Hf [Ha R0] R Eb.
  set (M U := integral (lp_space P) (lp_points P) U).
  assert (EV : forall U, volume (lp_space P) (lp_points P) U = / 2 * measure (lp_space P) (lp_points P) + / 2 * M U).
  { intros U. unfold volume, measure, M, integral. rewrite <- !suml_scal, <- suml_plus. apply suml_ext. intros q _. field. }
  assert (Hh : 0 < 1 / tp_step_start p) by (destruct Sp as (? & ? & _); apply Rdiv_lt_0_compat; lra).
  enough (G : M (lss_cur b) = M initial /\ ((0 < n)%nat -> M (lss_old b) = M initial)) by (rewrite !EV; destruct G as [-> _]; split; reflexivity).
  assert (E0 : M (lss_cur a) = M initial) by (apply (reinit_keeps P _ _ _ K (dtau_positive P _ _ K) R0)).
  clear EV. revert Hn Hf Eb. induction R as [|n b c R IH E T]; intros Hn Hf Eb.
  - split; [exact E0|lia].
  - destruct (IH ltac:(lia) (fun m Hm => Hf m ltac:(lia)) E) as (I1 & I2). clear IH.
    destruct (run_clocks P p fixed sm field faces a n b Ha R) as [C1 C2].
    destruct (Hf n ltac:(lia)) as [F1 F2].
    assert (L : legal_run fixed sm (Datatypes.S n) (setup_clocks p)).
    { intros m Hm. destruct (Nat.eq_dec m n) as [->|Hne]; [rewrite <- C1; exact E|]. apply C2. lia. }
    pose proof (time_step_balance P (fixed n) (sm n) (field n) (faces n) b c K F1 F2 T) as B. cbv zeta in B.
    change (w_new (clock_weights (ck_adv (lss_clocks c))) * M (lss_cur c) + w_old (clock_weights (ck_adv (lss_clocks c))) * M (lss_cur b) + (if w_use_old_old (clock_weights (ck_adv (lss_clocks c))) then w_old_old (clock_weights (ck_adv (lss_clocks c))) * M (lss_old b) else 0) = 0) in B.
    clearbody M. destruct T as (_ & T1 & T2 & _). rewrite T1, C1 in *.
    change (two_phase_step (N:=RNum) (fixed n) (sm n) (two_phase_loop (N:=RNum) fixed sm n (setup_clocks p))) with (two_phase_loop (N:=RNum) fixed sm (Datatypes.S n) (setup_clocks p)) in *.
    destruct (fixed_step_clock p sm (Datatypes.S n) Sp L Hn Eb) as (_ & W1 & W2 & W3).
    destruct (loop_sync p fixed sm (Datatypes.S n) Sp L) as [_ A]. destruct (A Eb) as [EA _]. clear A.
    destruct (loop_facts p fixed sm (Datatypes.S n) Sp L Eb) as (_ & G2 & G3 & _).
    rewrite EA in B. unfold clock_weights in B. cbn [w_new w_old w_old_old w_use_old_old] in B. unfold weight, weight_old, weight_old_old, ts_scheme, step_no in B.
    rewrite G2, G3, Z.mod_small in B by lia.
    specialize (W2 ltac:(lia)). rewrite T2. split; [|intros _; exact I1]. rewrite W1, W2 in B.
    set (h := 1 / tp_step_start p) in *. clearbody h.
    destruct (scheme_eqb (tp_scheme p) bdf_2 && (1 <? Z.of_nat (Datatypes.S n))%Z) eqn:U.
    + rewrite (W3 eq_refl) in B. rewrite I2 in B.
      2: { apply andb_true_iff in U as [_ U]. apply Z.ltb_lt in U. lia. }
      rewrite I1 in B. apply (Rmult_eq_reg_l h); lra.
    + rewrite I1 in B. apply (Rmult_eq_reg_l h); lra.
Qed.
Print Assumptions C109_fixed_step.

(** ** A concrete run *)
Lemma exact_step s stab w field faces guess co coo c : unconstrained s ->
  (forall i, (i < l_n s)%nat -> advection_residual s stab w field faces c co coo i = 0) ->
  forall i, (i < l_n s)%nat -> advance_vmult s stab (w_new w) field faces (fun j => c j - guess j) i = advance_rhs s stab w field faces guess co coo i.
Proof.
  intros U H i Hi. rewrite rhs_free by (apply U; exact Hi). rewrite (vmult_free s stab (w_new w) field faces _ i (U i Hi)).
  2: { intros j Hj K. rewrite U in K by exact Hj. discriminate K. }
  pose proof (residual_add s stab w field faces guess (fun j => c j - guess j) co coo i) as A.
  assert (B : advection_residual s stab w field faces (ladd guess (fun j => c j - guess j)) co coo i = advection_residual s stab w field faces c co coo i).
  { assert (V : forall q, lvalue s q (ladd guess (fun j => c j - guess j)) = lvalue s q c) by (intros q; apply lvalue_ext; intros j _; unfold ladd; ring).
    assert (G : forall q d, lgradient s q (ladd guess (fun j => c j - guess j)) d = lgradient s q c d) by (intros q d; apply lgradient_ext; intros j _; unfold ladd; ring).
    unfold advection_residual. f_equal.
    - apply suml_ext. intros a _. cbv zeta. rewrite V. rewrite (sumn_ext _ (fun d => a_vel a d * lgradient s (a_point a) (ladd guess (fun j => c j - guess j)) d) (fun d => a_vel a d * lgradient s (a_point a) c d)) by (intros; rewrite G; reflexivity).
      rewrite (sumn_ext _ (fun d => lgradient s (a_point a) (ladd guess (fun j => c j - guess j)) d * l_grad (a_point a) i d) (fun d => lgradient s (a_point a) c d * l_grad (a_point a) i d)) by (intros; rewrite G; reflexivity). reflexivity.
    - destruct stab; [|reflexivity]. apply suml_ext. intros f _. rewrite (sumn_ext _ _ (fun d => f_normal f d * lgradient s (f_point f) c d)) by (intros; rewrite G; reflexivity). reflexivity. }
  rewrite B, H in A by exact Hi. lra.
Qed.

(** one linear element on [0,1] with two quadrature points, velocity 1 in the left half and -1 in the right half *)
Definition ex_pt (x : R) : lpoint := MkLP (1/2) (fun i => match i with 0%nat => 1 - x | _ => x end) (fun i _ => match i with 0%nat => -1 | _ => 1 end) 1.
Definition ex_space : lspace := MkLS 1 2 (fun _ => false) (fun _ => 1).
Definition ex_field : list apoint := [MkAP (ex_pt (1/4)) (fun _ => 1) (1/16); MkAP (ex_pt (3/4)) (fun _ => -1) (1/16)].
Definition ex_P (stab : bool) : ls_problem := MkLsp ex_space (map a_point ex_field) 1 1 (1/2) 1 stab.
Definition ex_params : ts_params RNum := MkTP (N:=RNum) bdf_2 0 10 1 10 (1/10).
Definition ex_initial : lvec := fun i => match i with 0%nat => 1 | _ => -1 end.
Lemma ex_mesh stab : mesh_ok (ex_P stab).
Proof.
  split; [|split; [intros i _; reflexivity|cbn; lra || (split; [lia|split; lra])]].
  split.
  - intros p [<-|[<-|[]]]; cbn; lra.
  - intros p d [<-|[<-|[]]] _; cbn; lra.
Qed.
Lemma ex_solenoidal : solenoidal ex_space ex_field.
Proof. intros j _. cbn. destruct j; lra. Qed.
Lemma ex_sensible : sensible ex_params.
Proof. unfold sensible. cbn. lra. Qed.
Lemma ex_clock_step (c : clock RNum) x : settled c -> at_end c = false -> current_step_val c = 1 -> now_val c = x -> final_val c = 10 -> x + 1 <= 10 - 1/100 ->
  at_end (next c) = false /\ now_val (next c) = x + 1 /\ final_val (next c) = 10.
Proof.
  intros S E H1 H2 H3 H4. pose proof S as (S1 & S2 & S3).
  pose proof (hits_with c 1 S2 ltac:(rewrite <- H1; exact S3) E) as Hs.
  assert (W : with_step c 1 = c) by (rewrite <- H1; apply with_step_id; exact S1). rewrite W in Hs.
  assert (H : next_hits_end c = false).
  { rewrite Hs. apply Num.Rltb_false. rewrite H2, H3. lra. }
  unfold at_end in *. cbn [next at_end_val now_val final_val]. unfold next_time. rewrite H, E, (settled_next_s c S), H1, H2. rnum. split; [reflexivity|]. split; [reflexivity|exact H3].
Qed.
Lemma ex_clock n : (n <= 5)%nat -> let c := ck_ns (two_phase_loop (N:=RNum) fixed (fun _ => false) n (setup_clocks ex_params)) in
  at_end c = false /\ now_val c = INR n /\ final_val c = 10 /\ legal_run fixed (fun _ => false) n (setup_clocks ex_params).
Proof.
  induction n as [|n IH]; intros Hn c.
  - unfold c. cbn [two_phase_loop]. destruct (setup_sync ex_params ex_sensible) as (A & [B _] & _). split; [exact B|]. rewrite A. cbn. split; [reflexivity|]. split; [reflexivity|]. intros m Hm. lia.
  - destruct (IH ltac:(lia)) as (A & B & C & D). clear IH.
    destruct (loop_sync ex_params fixed (fun _ => false) n ex_sensible D) as [_ E]. destruct (E A) as [_ S].
    destruct (fixed_step_clock ex_params (fun _ => false) n ex_sensible D ltac:(lia) A) as (F & _).
    unfold c. cbn [two_phase_loop]. unfold two_phase_step. change (fixed n) with (@None R). cbn [ck_ns request_step].
    set (c0 := ck_ns (two_phase_loop (N:=RNum) fixed (fun _ => false) n (setup_clocks ex_params))) in *.
    assert (I5 : INR n <= 5) by (replace 5 with (INR 5) by (cbn; lra); apply le_INR; lia).
    destruct (ex_clock_step c0 (INR n) S A F B C ltac:(lra)) as (G1 & G2 & G3).
    split; [exact G1|]. split; [rewrite S_INR; exact G2|]. split; [exact G3|].
    intros m Hm. destruct (Nat.eq_dec m n) as [->|Hne]; [exact A|]. apply D. lia.
Qed.
Definition ex_target (x : R) : lvec := fun i => match i with 0%nat => x | _ => - x end.
Lemma ex_residual stab w co coo x y z : lp_stab (ex_P stab) = false ->
  (forall i, co i = ex_target y i) -> (forall i, coo i = ex_target z i) ->
  (w_new w - 4) * x + w_old w * y + (if w_use_old_old w then w_old_old w * z else 0) = 0 ->
  forall i, (i < 2)%nat -> advection_residual ex_space stab w ex_field [] (ex_target x) co coo i = 0.
Proof.
  intros Hs H1 H2 E i Hi. cbn in Hs. subst stab. unfold advection_residual. cbn. rewrite (H1 0%nat), (H1 1%nat), (H2 0%nat), (H2 1%nat). unfold ex_target.
  destruct i as [|[|i]]; [| |lia]; destruct (w_use_old_old w); lra.
Qed.
Lemma ex_weights n : (1 <= n <= 5)%nat -> let w := clock_weights (ck_adv (two_phase_loop (N:=RNum) fixed (fun _ => false) n (setup_clocks ex_params))) in
  w_new w = (if Nat.eqb n 1 then 1 else 3 / 2) /\ w_old w = (if Nat.eqb n 1 then -1 else -2) /\ w_use_old_old w = negb (Nat.eqb n 1) /\
  (n <> 1%nat -> w_old_old w = 1 / 2).
Proof.
  intros Hn w. destruct (ex_clock n ltac:(lia)) as (A & _ & _ & D).
  destruct (loop_sync ex_params fixed (fun _ => false) n ex_sensible D) as [_ E]. destruct (E A) as [EA _].
  destruct (fixed_step_clock ex_params (fun _ => false) n ex_sensible D ltac:(lia) A) as (_ & W1 & W2 & W3).
  destruct (loop_facts ex_params fixed (fun _ => false) n ex_sensible D A) as (_ & G2 & G3 & _).
  unfold w, clock_weights. rewrite EA. cbn [w_new w_old w_old_old w_use_old_old]. unfold weight, weight_old, weight_old_old, ts_scheme, step_no.
  rewrite W1, (W2 ltac:(lia)), G2, G3, Z.mod_small by lia.
  assert (X : (1 <? Z.of_nat n)%Z = negb (Nat.eqb n 1)) by (destruct (Nat.eqb_spec n 1), (Z.ltb_spec 1 (Z.of_nat n)); try reflexivity; lia).
  rewrite X in *. change (scheme_eqb (tp_scheme ex_params) bdf_2) with true in *. change (tp_step_start ex_params) with 1 in *. cbn [andb] in *.
  destruct (Nat.eqb_spec n 1) as [Z|Z]; cbn [negb] in *.
  - split; [lra|]. split; [lra|]. split; [reflexivity|]. intros K. contradiction.
  - split; [lra|]. split; [lra|]. split; [reflexivity|]. intros _. rewrite (W3 eq_refl). lra.
Qed.
(** two steps (Euler, then BDF-2) that really move the level set: (1,-1) -> (-1/3,1/3) -> ...; the hypotheses of the theorems hold *)
Example C109_nonvacuous : exists a b, ls_setup (ex_P false) ex_params ex_initial a /\
  ls_run (ex_P false) fixed (fun _ => false) (fun _ => ex_field) (fun _ => []) a 2 b /\
  at_end (ck_ns (lss_clocks b)) = false /\ lss_cur b 0%nat <> ex_initial 0%nat.
Proof.
  set (a := MkLss (setup_clocks (N:=RNum) ex_params) ex_initial ex_initial ex_initial).
  set (k1 := two_phase_loop (N:=RNum) fixed (fun _ => false) 1 (setup_clocks ex_params)).
  set (k2 := two_phase_loop (N:=RNum) fixed (fun _ => false) 2 (setup_clocks ex_params)).
  set (g1 := extrapolated (ck_ns k1) ex_initial ex_initial).
  set (c1 := advance_result ex_space g1 (fun j => ex_target (-1/3) j - g1 j)).
  set (b1 := MkLss k1 c1 ex_initial ex_initial).
  set (g2 := extrapolated (ck_ns k2) c1 ex_initial).
  set (c2 := advance_result ex_space g2 (fun j => ex_target (7/15) j - g2 j)).
  set (b2 := MkLss k2 c2 c1 ex_initial).
  assert (V1 : forall i, c1 i = ex_target (-1/3) i) by (intros i; unfold c1, advance_result, ladd, ldistribute, lmask; cbn [l_con ex_space]; ring).
  assert (V2 : forall i, c2 i = ex_target (7/15) i) by (intros i; unfold c2, advance_result, ladd, ldistribute, lmask; cbn [l_con ex_space]; ring).
  assert (V0 : forall i, ex_initial i = ex_target 1 i) by (intros [|i]; reflexivity).
  assert (A0 : at_end (ck_ns (setup_clocks (N:=RNum) ex_params)) = false) by exact (proj1 (ex_clock 0 ltac:(lia))).
  assert (A1 : at_end (ck_ns k1) = false) by exact (proj1 (ex_clock 1 ltac:(lia))).
  assert (A2 : at_end (ck_ns k2) = false) by exact (proj1 (ex_clock 2 ltac:(lia))).
  exists a, b2. split; [split; [reflexivity|apply rs_done]|]. split; [|split; [exact A2|]].
  - apply (lr_step _ _ _ _ _ _ 1 b1 b2); [apply (lr_step _ _ _ _ _ _ 0 a b1); [apply lr_start|exact A0|]|exact A1|].
    + refine (conj eq_refl (conj eq_refl (conj eq_refl (conj eq_refl _)))).
      exists (fun j => ex_target (-1/3) j - g1 j), c1. split; [|split; [apply rs_done|reflexivity]].
      apply (exact_step ex_space false (clock_weights (ck_adv k1)) ex_field [] g1 ex_initial ex_initial (ex_target (-1/3))); [intros i _; reflexivity|].
      apply (ex_residual false _ _ _ (-1/3) 1 1 eq_refl V0 V0).
      destruct (ex_weights 1 ltac:(lia)) as (W1 & W2 & W3 & _). fold k1 in W1, W2, W3. rewrite W1, W2, W3. cbn. lra.
    + refine (conj eq_refl (conj eq_refl (conj eq_refl (conj eq_refl _)))).
      exists (fun j => ex_target (7/15) j - g2 j), c2. split; [|split; [apply rs_done|reflexivity]].
      apply (exact_step ex_space false (clock_weights (ck_adv k2)) ex_field [] g2 c1 ex_initial (ex_target (7/15))); [intros i _; reflexivity|].
      apply (ex_residual false _ _ _ (7/15) (-1/3) 1 eq_refl V1 V0).
      destruct (ex_weights 2 ltac:(lia)) as (W1 & W2 & W3 & W4). fold k2 in W1, W2, W3, W4. rewrite W1, W2, W3, (W4 ltac:(lia)). cbn. lra.
  - cbn [b2 lss_cur]. rewrite V2. cbn. lra.
Qed.

(** ** Violation: with convection stabilization and a boundary that is not a symmetry boundary the stabilization moves volume through the
    boundary although the velocity is solenoidal: the first step of this run changes the integral from 0 to 1/20 *)
Definition ex_faces : list fpoint := [MkFP (MkLP 1 (fun i => match i with 0%nat => 0 | _ => 1 end) (fun i _ => match i with 0%nat => -1 | _ => 1 end) 1) (fun _ => 1) (1/16)].
Theorem C109_violation_stabilization : exists P p field faces initial a b,
  mesh_ok P /\ sensible p /\ lp_stab P = true /\ solenoidal (lp_space P) field /\
  partition_of_unity (lp_space P) (map f_point faces) /\
  ls_setup P p initial a /\ ls_run P fixed (fun _ => false) (fun _ => field) (fun _ => faces) a 1 b /\
  integral (lp_space P) (lp_points P) initial = 0 /\ integral (lp_space P) (lp_points P) (lss_cur b) = 1 / 20.
Proof.
  set (a := MkLss (setup_clocks (N:=RNum) ex_params) ex_initial ex_initial ex_initial).
  set (k1 := two_phase_loop (N:=RNum) fixed (fun _ => false) 1 (setup_clocks ex_params)).
  set (g1 := extrapolated (ck_ns k1) ex_initial ex_initial).
  set (t1 := (fun i => match i with 0%nat => - 7 / 20 | _ => 9 / 20 end) : lvec).
  set (c1 := advance_result ex_space g1 (fun j => t1 j - g1 j)).
  assert (V1 : forall i, c1 i = t1 i) by (intros i; unfold c1, advance_result, ladd, ldistribute, lmask; cbn [l_con ex_space]; ring).
  exists (ex_P true), ex_params, ex_field, ex_faces, ex_initial, a, (MkLss k1 c1 ex_initial ex_initial).
  refine (conj (ex_mesh true) (conj ex_sensible (conj eq_refl (conj ex_solenoidal (conj _ (conj _ (conj _ (conj _ _)))))))).
  - split; [intros p [<-|[]]; cbn; lra|intros p d [<-|[]] _; cbn; lra].
  - split; [reflexivity|apply rs_done].
  - apply (lr_step _ _ _ _ _ _ 0 a); [apply lr_start|exact (proj1 (ex_clock 0 ltac:(lia)))|].
    refine (conj eq_refl (conj eq_refl (conj eq_refl (conj eq_refl _)))).
    exists (fun j => t1 j - g1 j), c1. split; [|split; [apply rs_done|reflexivity]].
    apply (exact_step ex_space true (clock_weights (ck_adv k1)) ex_field ex_faces g1 ex_initial ex_initial t1); [intros i _; reflexivity|].
    destruct (ex_weights 1 ltac:(lia)) as (W1 & W2 & W3 & _). fold k1 in W1, W2, W3.
    intros i Hi. unfold advection_residual. rewrite W1, W2, W3. cbn. destruct i as [|[|i]]; [| |cbn in Hi; lia]; lra.
  - cbn. lra.
  - unfold integral. cbn. rewrite !V1. unfold t1. lra.
Qed.
Print Assumptions C109_violation_stabilization.

(** The initial guess of a step: a field linear in time is extrapolated to its value at the new time level, also for variable step sizes
    (the previous time level [t] is reached with [old_step_size], the new one with [step_size]); in the first step it is the last field. *)
Theorem C109_guess : forall (c : clock RNum) (A B : lvec) (t : R) i,
  (0 < old_step_size c -> extrapolated c (fun j => A j + B j * t) (fun j => A j + B j * (t - old_step_size c)) i = A i + B i * (t + step_size c)) /\
  (old_step_size c <= 0 -> extrapolated c (fun j => A j + B j * t) (fun j => A j + B j * (t - old_step_size c)) i = A i + B i * t).
Proof.
  intros c A B t i. unfold extrapolated. rnum. unfold Model_Bubble.Rltb. destruct (Rlt_dec 0 (old_step_size c)) as [H|H]; split; intros X.
  - generalize dependent (old_step_size c). intros o H _. generalize (step_size c). cbn. intros d. field. cbn in H. lra.
  - cbn in H, X. lra.
  - cbn in H, X. lra.
  - reflexivity.
Qed.
Print Assumptions C109_guess.
