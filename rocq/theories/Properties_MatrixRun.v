(** * The level set of the matrix-based solver over a whole run: C122 *)
From Coq Require Import ZArith Reals List Bool Lra Lia.
From Verif Require Import Num Model_TimeStepping Spec_TimeStepping Proofs_TimeStepping Model_TwoPhaseClocks Properties_TwoPhaseClocks
  SumR Model_BoundaryValues Properties_BoundaryValues Model_MatrixLevelSet Properties_MatrixLevelSet Model_MatrixRun.
From Verif Require Model_LevelSetOps Model_LevelSetRun Properties_LevelSetRun Properties_InteriorPenalty.
Import ListNotations.
Open Scope R_scope.

(** ** Specification *)
(** the integral of the level set function and the volume of the fluid with value +1 *)
Definition total (P : mr_problem) (U : nat -> R) : R := over (mp_cells P) (val U).
Definition fluid_volume (P : mr_problem) (U : nat -> R) : R := over (mp_cells P) (fun c p => (1 + val U c p) / 2).
(** hanging nodes are allowed; shape functions and hanging node weights sum to one; positive widths *)
Definition mr_mesh (P : mr_problem) : Prop :=
  closed (mp_con P) /\ below (mp_n P) (mp_con P) (mp_cells P) /\ sums_to_one (mp_dim P) (mp_con P) (mp_cells P) /\
  0 < mp_eps_used P /\ 0 < mp_eps P.

(** ** Sums over shape functions *)
Lemma total_flow dim con cells c p u : sums_to_one dim con cells -> In c cells -> In p (e_pts c) ->
  sumn (e_n c) (fun i => edot dim u (e_grad p i)) = 0.
Proof.
  intros [H _] Hc Hp. unfold edot. rewrite sumn_swap. apply sumn_zero. intros d Hd. rewrite sumn_scal, (proj2 (H c p Hc Hp) d Hd). ring.
Qed.
Lemma entry_total dim con cells c v stab w j : sums_to_one dim con cells -> In c cells -> In (v_pt v) (e_pts c) ->
  sumn (e_n c) (fun i => advance_entry dim stab w v i j) = w_new w * (e_shape (v_pt v) j * e_JxW (v_pt v)).
Proof.
  intros H Hc Hp. pose proof (total_flow dim con cells c (v_pt v) (v_vel v) H Hc Hp) as Z. destruct H as [H _].
  pose proof (proj1 (H c _ Hc Hp)) as Z1. unfold advance_entry. cbv zeta. destruct stab.
  - rewrite (sumn_ext (e_n c) _ (fun i => e_shape (v_pt v) i * (w_new w * e_shape (v_pt v) j * e_JxW (v_pt v)) +
      edot dim (v_vel v) (e_grad (v_pt v) i) * ((- e_shape (v_pt v) j + tau_stab dim w v * (edot dim (v_vel v) (e_grad (v_pt v) j) + e_shape (v_pt v) j * w_new w)) * e_JxW (v_pt v)))) by (intros; ring).
    rewrite sumn_plus, !sumn_scal_r, Z, Z1. ring.
  - rewrite (sumn_ext (e_n c) _ (fun i => e_shape (v_pt v) i * (w_new w * e_shape (v_pt v) j * e_JxW (v_pt v)) +
      edot dim (v_vel v) (e_grad (v_pt v) i) * (- e_shape (v_pt v) j * e_JxW (v_pt v)))) by (intros; ring).
    rewrite sumn_plus, !sumn_scal_r, Z, Z1. ring.
Qed.
Lemma load_total dim con cells c v stab w U Uo Uoo : sums_to_one dim con cells -> In c cells -> In (v_pt v) (e_pts c) ->
  sumn (e_n c) (advance_load dim stab w c v U Uo Uoo) =
  e_JxW (v_pt v) * (- w_old w * val Uo c (v_pt v) - (if w_use_old_old w then w_old_old w * val Uoo c (v_pt v) else 0)
                    - (if stab then 0 else w_new w * val U c (v_pt v))).
Proof.
  intros H Hc Hp. pose proof (total_flow dim con cells c (v_pt v) (v_vel v) H Hc Hp) as Z. destruct H as [H _].
  pose proof (proj1 (H c _ Hc Hp)) as Z1. unfold advance_load, cell_old_value. cbv zeta. rewrite !e_value_val.
  set (o := - w_old w * val Uo c (v_pt v) - _). destruct stab.
  - rewrite (sumn_ext (e_n c) _ (fun i => e_shape (v_pt v) i * (o * e_JxW (v_pt v)) + edot dim (v_vel v) (e_grad (v_pt v) i) * (tau_stab dim w v * o * e_JxW (v_pt v)))) by (intros; ring).
    rewrite sumn_plus, !sumn_scal_r, Z, Z1. ring.
  - rewrite (sumn_ext (e_n c) _ (fun i => e_shape (v_pt v) i * ((o - w_new w * val U c (v_pt v)) * e_JxW (v_pt v)) +
      edot dim (v_vel v) (e_grad (v_pt v) i) * (val U c (v_pt v) * e_JxW (v_pt v)))) by (intros; ring).
    rewrite sumn_plus, !sumn_scal_r, Z, Z1. ring.
Qed.
Lemma total_lin P a b U V : total P (fun g => a * U g + b * V g) = a * total P U + b * total P V.
Proof.
  unfold total, over. rewrite <- !suml_scal, <- suml_plus. apply suml_ext. intros c _. rewrite <- !suml_scal, <- suml_plus. apply suml_ext. intros p _.
  unfold val. rewrite (sumn_ext (e_n c) _ (fun i => a * (U (e_dof c i) * e_shape p i) + b * (V (e_dof c i) * e_shape p i))) by (intros; ring).
  rewrite sumn_plus, !sumn_scal. ring.
Qed.
Lemma total_add P U V : total P (fun g => U g + V g) = total P U + total P V.
Proof.
  transitivity (total P (fun g => 1 * U g + 1 * V g)); [|rewrite total_lin; ring].
  unfold total, over. apply suml_ext. intros c _. apply suml_ext. intros p _. f_equal. apply sumn_ext. intros. ring.
Qed.
(** ** The advection step, tested with the constant function *)
Theorem advance_balance : forall P stab w field U Uo Uoo diag x, mr_mesh P -> fits (mp_cells P) field ->
  solves_system (mp_n P) (mp_con P) diag (advance_systems (mp_dim P) stab w field U Uo Uoo) x ->
  let V := reinit_result (mp_con P) x U in
  w_new w * (total P V - (if stab then total P U else 0)) + w_old w * total P Uo + (if w_use_old_old w then w_old_old w * total P Uoo else 0) = 0.
Proof.
  intros P stab w field U Uo Uoo diag x (Hc & HB & H1 & _) [Hf Hp] Hs V.
  assert (In1 : forall y, In y field -> In (v_cell y) (mp_cells P)) by (intros y Hy; rewrite <- Hf; apply in_map; exact Hy).
  assert (In2 : forall y v, In y field -> In v (v_pts y) -> In (v_pt v) (e_pts (v_cell y))) by (intros y v Hy Hv; rewrite <- (Hp y Hy); apply in_map; exact Hv).
  assert (OV : forall f, over (mp_cells P) f = suml field (fun y => suml (v_pts y) (fun v => e_JxW (v_pt v) * f (v_cell y) (v_pt v)))).
  { intros f. unfold over. rewrite <- Hf, suml_map. apply suml_ext. intros y Hy. rewrite <- (Hp y Hy), suml_map. reflexivity. }
  pose proof (weak_form (mp_n P) (mp_con P) diag (fst (advance_systems (mp_dim P) stab w field U Uo Uoo)) (snd (advance_systems (mp_dim P) stab w field U Uo Uoo))
    x (fun _ => 1) Hc (constant_fulfils _ _ _ 1 H1)) as W.
  cbn [advance_systems fst snd] in W. rewrite !map_map in W. cbn [fst snd] in W.
  assert (HB' := HB). rewrite <- Hf in HB'. specialize (W HB' HB' Hs). rewrite !suml_map in W. cbn [fst snd] in W.
  set (Y := distribute (mp_con P) x) in *.
  assert (L : suml field (fun y => sumn (e_n (v_cell y)) (fun a => 1 * sumn (e_n (v_cell y)) (fun j => suml (v_pts y) (fun v => advance_entry (mp_dim P) stab w v a j) * Y (e_dof (v_cell y) j))))
    = w_new w * total P Y).
  { unfold total. rewrite OV, <- suml_scal. apply suml_ext. intros y Hy.
    transitivity (sumn (e_n (v_cell y)) (fun j => suml (v_pts y) (fun v => w_new w * (e_shape (v_pt v) j * e_JxW (v_pt v))) * Y (e_dof (v_cell y) j))).
    - rewrite (sumn_ext _ _ (fun a => sumn (e_n (v_cell y)) (fun j => suml (v_pts y) (fun v => advance_entry (mp_dim P) stab w v a j) * Y (e_dof (v_cell y) j)))) by (intros; ring).
      rewrite sumn_swap. apply sumn_ext. intros j _. rewrite sumn_scal_r. f_equal. rewrite <- suml_sumn. apply suml_ext. intros v Hv.
      apply (entry_total (mp_dim P) (mp_con P) (mp_cells P)); [exact H1|apply In1; exact Hy|apply In2; assumption].
    - rewrite <- suml_scal. rewrite (sumn_ext _ _ (fun j => suml (v_pts y) (fun v => w_new w * (e_shape (v_pt v) j * e_JxW (v_pt v)) * Y (e_dof (v_cell y) j)))) by (intros; rewrite Properties_InteriorPenalty.suml_scal_r; reflexivity).
      rewrite <- suml_sumn. apply suml_ext. intros v _. unfold val. rewrite <- !sumn_scal. apply sumn_ext. intros. ring. }
  rewrite L in W. clear L.
  assert (Rr : suml field (fun y => sumn (e_n (v_cell y)) (fun a => 1 * suml (v_pts y) (fun v => advance_load (mp_dim P) stab w (v_cell y) v U Uo Uoo a)))
    = - w_old w * total P Uo - (if w_use_old_old w then w_old_old w * total P Uoo else 0) - (if stab then 0 else w_new w * total P U)).
  { unfold total. rewrite !OV.
    transitivity (suml field (fun y => suml (v_pts y) (fun v => e_JxW (v_pt v) * (- w_old w * val Uo (v_cell y) (v_pt v)
      - (if w_use_old_old w then w_old_old w * val Uoo (v_cell y) (v_pt v) else 0) - (if stab then 0 else w_new w * val U (v_cell y) (v_pt v)))))).
    - apply suml_ext. intros y Hy. rewrite (sumn_ext _ _ (fun a => suml (v_pts y) (fun v => advance_load (mp_dim P) stab w (v_cell y) v U Uo Uoo a))) by (intros; ring).
      rewrite <- suml_sumn. apply suml_ext. intros v Hv.
      apply (load_total (mp_dim P) (mp_con P) (mp_cells P)); [exact H1|apply In1; exact Hy|apply In2; assumption].
    - assert (G : forall a b d A B D, suml field (fun y => suml (v_pts y) (fun v => e_JxW (v_pt v) * (a * A (v_cell y) (v_pt v) - b * B (v_cell y) (v_pt v) - d * D (v_cell y) (v_pt v)))) =
        a * suml field (fun y => suml (v_pts y) (fun v => e_JxW (v_pt v) * A (v_cell y) (v_pt v))) - b * suml field (fun y => suml (v_pts y) (fun v => e_JxW (v_pt v) * B (v_cell y) (v_pt v)))
        - d * suml field (fun y => suml (v_pts y) (fun v => e_JxW (v_pt v) * D (v_cell y) (v_pt v)))).
      { intros. rewrite <- !suml_scal, <- !suml_minus. apply suml_ext. intros y _. rewrite <- !suml_scal, <- !suml_minus. apply suml_ext. intros. ring. }
      destruct (w_use_old_old w), stab.
      + etransitivity; [|etransitivity; [exact (G (- w_old w) (w_old_old w) 0 (val Uo) (val Uoo) (val U))|ring]]. apply suml_ext; intros; apply suml_ext; intros; ring.
      + exact (G (- w_old w) (w_old_old w) (w_new w) (val Uo) (val Uoo) (val U)).
      + etransitivity; [|etransitivity; [exact (G (- w_old w) 0 0 (val Uo) (val Uoo) (val U))|ring]]. apply suml_ext; intros; apply suml_ext; intros; ring.
      + etransitivity; [|etransitivity; [exact (G (- w_old w) 0 (w_new w) (val Uo) (val Uoo) (val U))|ring]]. apply suml_ext; intros; apply suml_ext; intros; ring. }
  rewrite Rr in W. clear Rr. unfold V, reinit_result. fold Y. rewrite total_add. destruct stab; lra.
Qed.

(** ** Reinitialization *)
Lemma mr_reinit_keeps P dt U V : mr_mesh P -> 0 < dt -> mr_reinit P dt U V -> total P V = total P U.
Proof.
  intros (Hc & HB & H1 & E1 & E2) D R. induction R as [|U dif N diag sys x V HS Hx R IH]; [reflexivity|]. rewrite IH.
  refine (C94_conservation (mp_n P) (mp_dim P) (mp_con P) diag (mp_eps_used P) _ dif (mp_cells P) U N sys x Hc HB H1 _ HS Hx).
  unfold dtau_m. assert (0 < mp_eps_used P / mp_eps P) by (apply Rdiv_lt_0_compat; assumption).
  assert (0 < Rmin (mp_eps_used P / mp_eps P) dt) by (apply Rmin_glb_lt; assumption). lra.
Qed.

(** ** The clock *)
Definition flow_clock (ds : nat -> option R) (n : nat) (p : ts_params RNum) : clock RNum :=
  ck_ns (two_phase_loop (N:=RNum) ds (fun _ => false) n (setup_clocks p)).
Lemma mr_run_clock P p ds sm field a n b : mr_clock a = ck_ns (setup_clocks (N:=RNum) p) -> mr_run P ds sm field a n b ->
  mr_clock b = flow_clock ds n p /\ legal_run ds (fun _ => false) n (setup_clocks p).
Proof.
  intros Ha R. induction R as [|n b c R [I1 I2] E T].
  - split; [exact Ha|]. intros m Hm. lia.
  - split.
    + destruct T as (_ & T & _). rewrite T, I1. reflexivity.
    + intros m Hm. destruct (Nat.eq_dec m n) as [->|Hne]; [unfold flow_clock in I1; rewrite <- I1; exact E|]. apply I2. lia.
Qed.
(** the weights and the step size of step n + 1 *)
Lemma flow_weights (p : ts_params RNum) ds n : sensible p -> legal_run ds (fun _ => false) (S n) (setup_clocks p) -> (Z.of_nat (S n) < 4294967296)%Z ->
  let w := Model_LevelSetRun.clock_weights (flow_clock ds (S n) p) in
  0 < step_size (flow_clock ds (S n) p) /\
  ((w_use_old_old w = false /\
     exists cur, 0 < cur /\ w_old w = - (1 / cur) /\ Rabs (w_new w - 1 / cur) <= 1 / cur / 1000000000000) \/
  ((0 < n)%nat /\ w_use_old_old w = true /\
     exists cur last, 0 < cur <= 101 / 100 * last /\
       w_old w = - ((cur + last) / (cur * last)) /\ w_old_old w = cur / (last * (cur + last)) /\
       Rabs (w_new w - (2 * cur + last) / (cur * (cur + last))) <= (2 * cur + last) / (cur * (cur + last)) / 1000000000000)).
Proof.
  intros Sp L Hn w. unfold flow_clock in *. set (sm := fun _ : nat => false) in *.
  assert (L' : legal_run ds sm n (setup_clocks p)) by (intros m Hm; apply L; lia).
  assert (E0 : at_end (ck_ns (two_phase_loop (N:=RNum) ds sm n (setup_clocks p))) = false) by (apply L; lia).
  destruct (loop_sync p ds sm n Sp L') as [_ A]. destruct (A E0) as [_ S0]. clear A.
  destruct (Properties_LevelSetRun.loop_facts p ds sm n Sp L' E0) as (I1 & I2 & I3 & I4 & I5 & I6).
  unfold w. cbn [two_phase_loop]. unfold two_phase_step. cbn [ck_ns].
  set (c := ck_ns (two_phase_loop (N:=RNum) ds sm n (setup_clocks p))) in *. clearbody c. clear w.
  destruct (request_settled c (ds n) S0) as (s & -> & D1 & _).
  destruct (Properties_LevelSetRun.clock_step c s S0 E0 I1 D1) as (K1 & K2 & _ & _).
  split; [exact (proj1 K1)|].
  assert (NA : not_at_start c = negb (Nat.eqb n 0)).
  { unfold not_at_start. rewrite I4. destruct (Nat.eqb_spec n 0) as [Z|Z]; cbn [negb].
    - apply negb_false_iff. rnum. apply Num.Reqb_true. exact (I5 Z).
    - apply negb_true_iff. rnum. apply Num.Reqb_false. specialize (I6 ltac:(lia)). lra. }
  assert (SN : (1 <? step_no (next (with_step c s)))%Z = negb (Nat.eqb n 0)).
  { unfold step_no. cbn [next step_no_val with_step]. rewrite I2, Zplus_mod_idemp_l.
    rewrite Z.mod_small by lia. destruct (Nat.eqb_spec n 0) as [Z|Z]; cbn [negb]; [apply Z.ltb_ge|apply Z.ltb_lt]; lia. }
  assert (UB : next_uses_bdf (with_step c s) = w_use_old_old (Model_LevelSetRun.clock_weights (next (with_step c s)))).
  { unfold next_uses_bdf, Model_LevelSetRun.clock_weights. cbn [Model_LevelSetOps.w_use_old_old]. rewrite SN. unfold ts_scheme. cbn [next scheme_val with_step].
    change (not_at_start (with_step c s)) with (not_at_start c). rewrite NA. reflexivity. }
  rewrite <- UB. unfold Model_LevelSetRun.clock_weights. cbn [Model_LevelSetOps.w_new Model_LevelSetOps.w_old Model_LevelSetOps.w_old_old].
  pose proof (weight_close (with_step c s)) as WC.
  unfold weight_old, weight_old_old. cbn [next weight_old_val weight_old_old_val]. unfold next_weight_old, next_weight_old_old, next_new_weight in *.
  destruct (next_uses_bdf (with_step c s)) eqn:U.
  - right. assert (N0 : not_at_start c = true).
    { unfold next_uses_bdf in U. apply andb_true_iff in U as [_ U]. exact U. }
    rewrite NA in N0. destruct (Nat.eqb_spec n 0) as [Z|Z]; [discriminate N0|]. split; [lia|]. split; [reflexivity|].
    rewrite (K2 ltac:(rewrite NA; destruct (Nat.eqb_spec n 0); [lia|reflexivity])) in *.
    exists (next_step (with_step c s)), s. rnum. q2r.
    set (cur := next_step (with_step c s)) in *. clearbody cur. split; [exact K1|]. split; [reflexivity|]. split; [reflexivity|].
    assert (P : 0 < (2 * cur + s) / (cur * (cur + s))) by (apply Rdiv_lt_0_compat; [lra|apply Rmult_lt_0_compat; lra]).
    replace (2 * / 1 * cur + s) with (2 * cur + s) in WC by (rewrite Rinv_1; ring). apply WC. exact P.
  - left. split; [reflexivity|]. exists (next_step (with_step c s)). rnum. q2r.
    set (cur := next_step (with_step c s)) in *. clearbody cur. split; [lra|]. split; [field; lra|].
    replace (1 * / 1 / cur) with (1 / cur) in WC by (rewrite Rinv_1, Rmult_1_r; reflexivity). apply WC. apply Rdiv_lt_0_compat; lra.
Qed.
Lemma start_step (p : ts_params RNum) : sensible p -> 0 < step_size (ck_ns (setup_clocks (N:=RNum) p)).
Proof.
  intros Sp. destruct (setup_sync p Sp) as (_ & _ & S1 & S2 & S3). unfold step_size. lra.
Qed.
(** one step of the run *)
Lemma mr_step_balance P d sm field a b : mr_mesh P -> 0 < step_size (mr_clock b) -> mr_time_step P d sm field a b ->
  let w := Model_LevelSetRun.clock_weights (mr_clock b) in
  w_new w * (total P (mr_cur b) - (if mp_stab P then total P (Model_LevelSetRun.extrapolated (mr_clock b) (mr_cur a) (mr_old a)) else 0))
  + w_old w * total P (mr_cur a) + (if w_use_old_old w then w_old_old w * total P (mr_old a) else 0) = 0.
Proof.
  intros K D (F & E1 & _ & _ & diag & x & first & H & R1 & R2) w. rewrite <- E1 in *.
  assert (E : total P (mr_cur b) = total P (reinit_result (mp_con P) x (Model_LevelSetRun.extrapolated (mr_clock b) (mr_cur a) (mr_old a)))).
  { rewrite <- (mr_reinit_keeps P _ _ _ K D R1). destruct sm; [exact (mr_reinit_keeps P _ _ _ K D R2)|rewrite R2; reflexivity]. }
  rewrite E. exact (advance_balance P (mp_stab P) w field _ _ _ diag x K F H).
Qed.
(** no step size requests *)
Notation fixed := Properties_LevelSetRun.fixed.
Notation rho := Properties_LevelSetRun.rho.
Notation tiny := Properties_LevelSetRun.tiny.
Lemma fixed_flow_clock (p : ts_params RNum) n : sensible p -> legal_run fixed (fun _ => false) (S n) (setup_clocks p) -> (Z.of_nat (S n) < 4294967296)%Z ->
  at_end (flow_clock fixed (S n) p) = false ->
  let c := flow_clock fixed (S n) p in let w := Model_LevelSetRun.clock_weights c in let h := 1 / tp_step_start p in
  0 < h /\ step_size c = tp_step_start p /\ old_step_size c = (if Nat.eqb n 0 then 0 else tp_step_start p) /\
  (w_use_old_old w = false /\ w_new w = h /\ w_old w = - h \/
   (0 < n)%nat /\ w_use_old_old w = true /\ w_new w = 3 / 2 * h /\ w_old w = - 2 * h /\ w_old_old w = 1 / 2 * h).
Proof.
  intros Sp L Hn Eb c w h. unfold flow_clock in *. set (sm := fun _ : nat => false) in *.
  assert (Hs : 0 < tp_step_start p) by (destruct Sp as (? & ? & _); lra).
  assert (Hh : 0 < h) by (apply Rdiv_lt_0_compat; lra).
  destruct (Properties_LevelSetRun.fixed_step_clock p sm (S n) Sp L Hn Eb) as (W0 & W1 & W2 & W3). specialize (W2 ltac:(lia)).
  destruct (Properties_LevelSetRun.loop_facts p fixed sm (S n) Sp L Eb) as (_ & G2 & G3 & _).
  split; [exact Hh|]. split; [exact W0|]. split.
  - assert (L' : legal_run fixed sm n (setup_clocks p)) by (intros m Hm; apply L; lia).
    assert (E0 : at_end (ck_ns (two_phase_loop (N:=RNum) fixed sm n (setup_clocks p))) = false) by (apply L; lia).
    destruct (Properties_LevelSetRun.fixed_step_clock p sm n Sp L' ltac:(lia) E0) as (V0 & _).
    destruct (Properties_LevelSetRun.loop_facts p fixed sm n Sp L' E0) as (_ & _ & _ & I4 & I5 & I6).
    destruct (Nat.eqb_spec n 0) as [Z|Z].
    + subst n. unfold c. cbn [two_phase_loop]. unfold two_phase_step. change (fixed 0) with (@None R). cbn [ck_ns request_step].
      rewrite (proj1 (setup_sync p Sp)). unfold old_step_size. cbn [next last_step_val]. unfold next_last.
      assert (N : not_at_start (restart (ts_init (N:=RNum) p)) = false).
      { unfold not_at_start. apply negb_false_iff. rnum. apply Num.Reqb_true. reflexivity. }
      rewrite N. cbn. lra.
    + unfold c. cbn [two_phase_loop]. unfold two_phase_step. change (fixed n) with (@None R). cbn [ck_ns request_step].
      set (c0 := ck_ns (two_phase_loop (N:=RNum) fixed sm n (setup_clocks p))) in *. unfold old_step_size. cbn [next last_step_val]. unfold next_last.
      assert (N : not_at_start c0 = true).
      { unfold not_at_start. rewrite I4. apply negb_true_iff. rnum. apply Num.Reqb_false. specialize (I6 ltac:(lia)). lra. }
      rewrite N. exact V0.
  - unfold w, c, Model_LevelSetRun.clock_weights. cbn [Model_LevelSetOps.w_new Model_LevelSetOps.w_old Model_LevelSetOps.w_old_old Model_LevelSetOps.w_use_old_old].
    unfold weight, weight_old, weight_old_old, ts_scheme, step_no. rewrite G2, G3, Z.mod_small by lia. rewrite W1, W2.
    destruct (scheme_eqb (tp_scheme p) bdf_2 && (1 <? Z.of_nat (S n))%Z) eqn:U.
    + right. rewrite (W3 eq_refl). apply andb_true_iff in U as [_ U]. apply Z.ltb_lt in U. split; [lia|]. split; [reflexivity|]. split; [reflexivity|]. split; reflexivity.
    + left. split; [reflexivity|]. split; reflexivity.
Qed.

(** ** C122 *)
(** Without stabilization: over the whole run, for every velocity field (also with sources or flow through the boundary), every history of
    step size requests and every number of reinitialization steps, the integral of the level set function changes by at most 2e-12 relative
    per step - the weight changes that the clock ignores. *)
Theorem C122_volume : forall (P : mr_problem) (p : ts_params RNum) ds sm field initial a n b,
  mr_mesh P -> mp_stab P = false -> sensible p -> (Z.of_nat n < 4294967296)%Z ->
  mr_setup P p initial a -> mr_run P ds sm field a n b ->
  Rabs (total P (mr_cur b) - total P initial) <= ((1 + 2 / 1000000000000) ^ n - 1) * Rabs (total P initial).
Proof.
  intros P p ds sm field initial a n b K St Sp Hn [Ha R0] R.
  assert (E0 : total P (mr_cur a) = total P initial) by (apply (mr_reinit_keeps P (step_size (mr_clock a)) _ _ K); [rewrite Ha; exact (start_step p Sp)|exact R0]).
  set (M := total P) in *. set (mu := Rabs (M initial)). assert (Hmu : 0 <= mu) by apply Rabs_pos.
  replace (1 + 2 / 1000000000000) with rho by (unfold rho, tiny; lra).
  assert (T0 : 0 < tiny < 1 / 1000) by (unfold tiny; lra).
  assert (Q1 : 1 <= rho) by (unfold rho; lra).
  assert (QP : forall k, 1 <= rho ^ k) by (intros k; apply pow_R1_Rle; exact Q1).
  enough (G : Rabs (M (mr_cur b)) <= mu * rho ^ n /\ Rabs (M (mr_cur b) - M initial) <= (rho ^ n - 1) * mu /\
    (forall m, n = Datatypes.S m -> Rabs (M (mr_cur b) - M (mr_old b)) <= 2 * tiny * mu * rho ^ m)) by (destruct G as (_ & G & _); exact G).
  revert Hn. induction R as [|n b c R IH E T]; intros Hn.
  - rewrite E0. cbn [pow]. fold mu. replace (M initial - M initial) with 0 by ring. rewrite Rabs_R0. split; [lra|]. split; [lra|]. intros m Hm. discriminate Hm.
  - destruct (IH ltac:(lia)) as (I1 & I2 & I3). clear IH.
    destruct (mr_run_clock P p ds sm field a (S n) c Ha (mrr_step P ds sm field a n b c R E T)) as [C1 C2].
    destruct (flow_weights p ds n Sp C2 Hn) as [Pos W].
    pose proof (mr_step_balance P (ds n) (sm n) (field n) b c K ltac:(rewrite C1; exact Pos) T) as B. cbv zeta in B. rewrite St, C1, Rminus_0_r in B.
    change (total P) with M in B. destruct T as (_ & _ & T2 & _).
    set (w := Model_LevelSetRun.clock_weights (flow_clock ds (S n) p)) in *. clearbody w M.
    assert (D : Rabs (M (mr_cur c) - M (mr_cur b)) <= 2 * tiny * mu * rho ^ n).
    { destruct W as [(U & cur & W1 & W2 & W3)|(N0 & U & cur & last & W1 & W2 & W3 & W4)]; rewrite U in B.
      - rewrite W2, Rplus_0_r in B. assert (X : Rabs (M (mr_cur c) - M (mr_cur b)) <= 11 / 10 * tiny * Rabs (M (mr_cur b))) by exact (Properties_LevelSetRun.euler_recursion _ _ _ _ W1 W3 B).
        assert (11 / 10 * tiny * Rabs (M (mr_cur b)) <= 11 / 10 * tiny * (mu * rho ^ n)) by (apply Rmult_le_compat_l; lra).
        assert (0 <= tiny * (mu * rho ^ n)) by (apply Rmult_le_pos; [lra|apply Rmult_le_pos; [lra|specialize (QP n); lra]]). lra.
      - rewrite W2, W3 in B. assert (X : Rabs (M (mr_cur c) - M (mr_cur b)) <= 11 / 10 * tiny * Rabs (M (mr_cur b)) + 35 / 100 * Rabs (M (mr_cur b) - M (mr_old b))) by exact (Properties_LevelSetRun.bdf_recursion _ _ _ _ _ _ W1 W4 B). destruct n as [|m]; [lia|].
        specialize (I3 m eq_refl).
        assert (11 / 10 * tiny * Rabs (M (mr_cur b)) <= 11 / 10 * tiny * (mu * rho ^ Datatypes.S m)) by (apply Rmult_le_compat_l; lra).
        assert (Y : 2 * tiny * mu * rho ^ m <= 2 * tiny * mu * rho ^ Datatypes.S m).
        { apply Rmult_le_compat_l; [apply Rmult_le_pos; lra|]. cbn [pow]. specialize (QP m). nra. }
        assert (0 <= tiny * (mu * rho ^ Datatypes.S m)) by (apply Rmult_le_pos; [lra|apply Rmult_le_pos; [lra|specialize (QP (Datatypes.S m)); lra]]). lra. }
    refine (conj _ (conj _ _)).
    + replace (M (mr_cur c)) with (M (mr_cur b) + (M (mr_cur c) - M (mr_cur b))) by ring. eapply Rle_trans; [apply Rabs_triang|].
      cbn [pow]. replace (mu * (rho * rho ^ n)) with (mu * rho ^ n + 2 * tiny * mu * rho ^ n) by (unfold rho; ring). lra.
    + replace (M (mr_cur c) - M initial) with ((M (mr_cur b) - M initial) + (M (mr_cur c) - M (mr_cur b))) by ring. eapply Rle_trans; [apply Rabs_triang|].
      cbn [pow]. replace ((rho * rho ^ n - 1) * mu) with ((rho ^ n - 1) * mu + 2 * tiny * mu * rho ^ n) by (unfold rho; ring). lra.
    + intros m Hm. injection Hm as <-. rewrite T2. exact D.
Qed.
(** with a fixed time step the volume of each fluid is exactly kept up to the last step before the end of the interval *)
Theorem C122_fixed_step : forall (P : mr_problem) (p : ts_params RNum) sm field initial a n b,
  mr_mesh P -> mp_stab P = false -> sensible p -> (Z.of_nat n < 4294967296)%Z ->
  mr_setup P p initial a -> mr_run P fixed sm field a n b -> at_end (mr_clock b) = false ->
  total P (mr_cur b) = total P initial /\ fluid_volume P (mr_cur b) = fluid_volume P initial.
Proof.
  intros P p sm field initial a n b K St Sp Hn [Ha R0] R Eb.
  assert (EV : forall U, fluid_volume P U = over (mp_cells P) (fun _ _ => / 2) + / 2 * total P U).
  { intros U. unfold fluid_volume, total, over. rewrite <- suml_scal, <- suml_plus. apply suml_ext. intros c _. rewrite <- suml_scal, <- suml_plus. apply suml_ext. intros q _. field. }
  enough (G : total P (mr_cur b) = total P initial /\ ((0 < n)%nat -> total P (mr_old b) = total P initial)) by (rewrite !EV; destruct G as [-> _]; split; reflexivity).
  clear EV. assert (E0 : total P (mr_cur a) = total P initial) by (apply (mr_reinit_keeps P (step_size (mr_clock a)) _ _ K); [rewrite Ha; exact (start_step p Sp)|exact R0]).
  revert Hn Eb. induction R as [|n b c R IH E T]; intros Hn Eb.
  - split; [exact E0|lia].
  - destruct (IH ltac:(lia) E) as (I1 & I2). clear IH.
    destruct (mr_run_clock P p fixed sm field a (S n) c Ha (mrr_step P fixed sm field a n b c R E T)) as [C1 C2].
    destruct (flow_weights p fixed n Sp C2 Hn) as [Pos _].
    pose proof (mr_step_balance P (fixed n) (sm n) (field n) b c K ltac:(rewrite C1; exact Pos) T) as B. cbv zeta in B. rewrite St, C1, Rminus_0_r in B.
    rewrite C1 in Eb. destruct (fixed_flow_clock p n Sp C2 Hn Eb) as (Hh & _ & _ & W). destruct T as (_ & _ & T2 & _). rewrite T2.
    set (w := Model_LevelSetRun.clock_weights (flow_clock fixed (S n) p)) in *. clearbody w. set (h := 1 / tp_step_start p) in *. clearbody h. split; [|intros _; exact I1].
    destruct W as [(U & W1 & W2)|(N0 & U & W1 & W2 & W3)]; rewrite U in B; rewrite W1, W2, ?W3 in B; rewrite I1 in B; try rewrite (I2 N0) in B; apply (Rmult_eq_reg_l h); lra.
Qed.
(** the level set stays continuous at hanging nodes *)
Theorem C122_continuous : forall (P : mr_problem) (p : ts_params RNum) ds sm field initial a n b,
  closed (mp_con P) -> fulfils (mp_con P) initial -> fulfils (mp_con P) (mr_old a) ->
  mr_setup P p initial a -> mr_run P ds sm field a n b -> fulfils (mp_con P) (mr_cur b).
Proof.
  intros P p ds sm field initial a n b Hc F0 Fo [_ R0] R.
  assert (C : forall s t U V, fulfils (mp_con P) U -> fulfils (mp_con P) V -> fulfils (mp_con P) (fun g => s * U g + t * V g)).
  { intros s t U V FU FV i l E. rewrite (FU i l E), (FV i l E), <- !suml_scal, <- suml_plus. apply suml_ext. intros. ring. }
  assert (A : forall x U, fulfils (mp_con P) U -> fulfils (mp_con P) (reinit_result (mp_con P) x U)).
  { intros x U FU i l E. unfold reinit_result. rewrite (FU i l E), (distribute_fulfils (mp_con P) x Hc i l E), <- suml_plus. apply suml_ext. intros. ring. }
  assert (I : forall dt U V, mr_reinit P dt U V -> fulfils (mp_con P) U -> fulfils (mp_con P) V).
  { intros dt U V H. induction H as [|U dif N diag sys x V HS Hx H IH]; intros FU; [exact FU|]. apply IH, A, FU. }
  enough (G : fulfils (mp_con P) (mr_cur b) /\ fulfils (mp_con P) (mr_old b)) by exact (proj1 G).
  induction R as [|n b c R [I1 I2] E T].
  - split; [exact (I _ _ _ R0 F0)|exact Fo].
  - destruct T as (_ & _ & T2 & _ & diag & x & first & _ & T3 & T4). rewrite T2. split; [|exact I1].
    assert (F1 : fulfils (mp_con P) first).
    { apply (I _ _ _ T3). apply A. unfold Model_LevelSetRun.extrapolated. destruct (Model_Bubble.Rltb _ _); [apply C; assumption|exact I1]. }
    destruct (sm n); [exact (I _ _ _ T4 F1)|rewrite T4; exact F1].
Qed.
(** With convection stabilization and a fixed time step the integral of the level set function at least doubles in absolute value in every
    step, on every mesh, for every velocity field and whatever the reinitialization does *)
Theorem C122_violation_growth : forall (P : mr_problem) (p : ts_params RNum) sm field initial a n b,
  mr_mesh P -> mp_stab P = true -> sensible p -> (Z.of_nat n < 4294967296)%Z ->
  mr_setup P p initial a -> mr_run P fixed sm field a n b -> at_end (mr_clock b) = false ->
  2 ^ n * Rabs (total P initial) <= Rabs (total P (mr_cur b)).
Proof.
  intros P p sm field initial a n b K St Sp Hn [Ha R0] R Eb.
  assert (E0 : total P (mr_cur a) = total P initial) by (apply (mr_reinit_keeps P (step_size (mr_clock a)) _ _ K); [rewrite Ha; exact (start_step p Sp)|exact R0]).
  enough (G : exists x y, total P (mr_cur b) = x * total P initial /\ 2 ^ n <= x /\
    ((0 < n)%nat -> total P (mr_old b) = y * total P initial /\ 0 < y /\ 2 * y <= x)).
  { destruct G as (x & _ & -> & X & _). rewrite Rabs_mult. apply Rmult_le_compat_r; [apply Rabs_pos|]. eapply Rle_trans; [exact X|apply Rle_abs]. }
  revert Hn Eb. induction R as [|n b c R IH E T]; intros Hn Eb.
  - exists 1, 0. split; [rewrite E0; ring|]. split; [cbn; lra|lia].
  - destruct (IH ltac:(lia) E) as (x & y & I1 & I2 & I3). clear IH.
    destruct (mr_run_clock P p fixed sm field a (S n) c Ha (mrr_step P fixed sm field a n b c R E T)) as [C1 C2].
    destruct (flow_weights p fixed n Sp C2 Hn) as [Pos _].
    pose proof (mr_step_balance P (fixed n) (sm n) (field n) b c K ltac:(rewrite C1; exact Pos) T) as B. cbv zeta in B. rewrite St, C1 in B.
    rewrite C1 in Eb. destruct (fixed_flow_clock p n Sp C2 Hn Eb) as (Hh & S1 & S2 & W). destruct T as (_ & _ & T2 & _). rewrite T2.
    assert (Hs : 0 < tp_step_start p) by (destruct Sp as (? & ? & _); lra).
    assert (P2 : 1 <= 2 ^ n) by (apply pow_R1_Rle; lra).
    assert (EX : total P (Model_LevelSetRun.extrapolated (flow_clock fixed (S n) p) (mr_cur b) (mr_old b)) = (if Nat.eqb n 0 then total P (mr_cur b) else 2 * total P (mr_cur b) - total P (mr_old b))).
    { unfold Model_LevelSetRun.extrapolated. rewrite S1, S2. destruct (Nat.eqb n 0).
      - unfold Model_Bubble.Rltb. destruct (Rlt_dec 0 0); [lra|reflexivity].
      - unfold Model_Bubble.Rltb. destruct (Rlt_dec 0 (tp_step_start p)); [|contradiction]. rewrite total_lin. field. lra. }
    rewrite EX in B. set (w := Model_LevelSetRun.clock_weights (flow_clock fixed (S n) p)) in *. clearbody w. set (h := 1 / tp_step_start p) in *. clearbody h. set (M := total P) in *. clearbody M.
    destruct (Nat.eqb_spec n 0) as [Z|Z].
    + subst n. destruct W as [(U & W1 & W2)|(N0 & _)]; [|lia]. rewrite U, W1, W2 in B. exists (2 * x), x. cbn [pow] in *.
      split; [|split; [lra|intros _; split; [exact I1|split; lra]]]. rewrite I1 in B. apply (Rmult_eq_reg_l h); lra.
    + destruct (I3 ltac:(lia)) as (J1 & J2 & J3). rewrite I1, J1 in B. destruct W as [(U & W1 & W2)|(N0 & U & W1 & W2 & W3)]; rewrite U in B; rewrite W1, W2, ?W3 in B.
      * exists (3 * x - y), x. cbn [pow]. split; [apply (Rmult_eq_reg_l h); lra|]. split; [lra|]. intros _. split; [exact I1|]. split; lra.
      * exists (10 / 3 * x - 4 / 3 * y), x. cbn [pow]. split; [apply (Rmult_eq_reg_l h); lra|]. split; [lra|]. intros _. split; [exact I1|]. split; lra.
Qed.

(** ** A concrete run: two cells with a hanging node in the middle, flow through the domain from left to right *)
Definition hang : lines := fun i => match i with 1%nat => Some [(0%nat, 1/2); (2%nat, 1/2)] | _ => None end.
Definition wP (stab : bool) : mr_problem := MkMrp 1 3 hang wcells (1/2) 1 stab.
Definition wfield (u : R) : list vcell := map (fun c => MkVC c (map (fun p => MkVP p (fun _ => u) (fun _ _ => 1)) (e_pts c))) wcells.
Definition wline (s t : R) : nat -> R := fun i => match i with 0%nat => s | 1%nat => (s + t) / 2 | _ => t end.
Lemma w_mesh stab : mr_mesh (wP stab).
Proof.
  split; [intros i l m w E; destruct i as [|[|i]]; try discriminate E; injection E as <-; intros [F|[F|[]]]; injection F as <- <-; reflexivity|]. split; [|split; [|cbn; lra]].
  - intros c a mw [<-|[<-|[]]] Ha; cbn in *; (destruct a as [|[|a]]; [| |lia]); cbn; intros H; repeat (destruct H as [H|H]; [subst mw; cbn; lia|]); destruct H.
  - split.
    + intros c p [<-|[<-|[]]] [<-|[]]; cbn; split; try lra; intros; lra.
    + intros i l E. destruct i as [|[|i]]; try discriminate E. injection E as <-. cbn. lra.
Qed.
Lemma w_fits u : fits wcells (wfield u).
Proof. split; [reflexivity|]. intros x [<-|[<-|[]]]; reflexivity. Qed.
(** one step from the line with end values (s1,t1), older (s0,t0), guess (gs,gt) to the line with end values (s,t) *)
Lemma w_step stab u w s t gs gt s1 t1 s0 t0 guess cur old : (stab = true -> u = 0) ->
  (forall i, guess i = wline gs gt i) -> (forall i, cur i = wline s1 t1 i) -> (forall i, old i = wline s0 t0 i) ->
  (forall y, y = 1 / 4 \/ y = 3 / 4 ->
     w_new w * ((if stab then s - gs else s) * (1 - y) + (if stab then t - gt else t) * y) + w_old w * (s1 * (1 - y) + t1 * y)
     + (if w_use_old_old w then w_old_old w * (s0 * (1 - y) + t0 * y) else 0) = (if Rlt_dec y (1 / 2) then - u else u) * (s + t)) ->
  exists x, solves_system 3 hang (fun _ => 1) (advance_systems 1 stab w (wfield u) guess cur old) x /\
    forall i, reinit_result hang x guess i = wline s t i.
Proof.
  intros Hu G C O E. pose proof (E (1/4) (or_introl eq_refl)) as E1. pose proof (E (3/4) (or_intror eq_refl)) as E2. clear E.
  destruct (Rlt_dec (1/4) (1/2)) in E1; [|lra]. destruct (Rlt_dec (3/4) (1/2)) in E2; [lra|].
  exists (fun i => match i with 0%nat => s - gs | 1%nat => 0 | _ => t - gt end). split.
  - intros g Hg. unfold matrix_row, vector_row. destruct g as [|[|[|g]]]; [| | |lia]; destruct stab;
      cbn -[tau_stab]; unfold advance_entry, advance_load, cell_old_value, e_value, edot; cbn -[tau_stab];
      rewrite ?(G 0%nat), ?(G 1%nat), ?(G 2%nat), ?(C 0%nat), ?(C 1%nat), ?(C 2%nat), ?(O 0%nat), ?(O 1%nat), ?(O 2%nat); unfold wline;
      try (rewrite (Hu eq_refl) in *); destruct (w_use_old_old w); try lra.
  - intros i. unfold reinit_result, distribute, hang. rewrite G. destruct i as [|[|i]]; cbn; lra.
Qed.

Lemma w_clock n : (n <= 2)%nat -> flow_clock fixed n Properties_LevelSetRun.ex_params = ck_ns (two_phase_loop (N:=RNum) fixed (fun _ => false) n (setup_clocks Properties_LevelSetRun.ex_params)) /\
  at_end (flow_clock fixed n Properties_LevelSetRun.ex_params) = false.
Proof. intros Hn. split; [reflexivity|]. exact (proj1 (Properties_LevelSetRun.ex_clock n ltac:(lia))). Qed.
Lemma w_weights n : (n <= 1)%nat -> let c := flow_clock fixed (S n) Properties_LevelSetRun.ex_params in let w := Model_LevelSetRun.clock_weights c in
  step_size c = 1 /\ old_step_size c = (if Nat.eqb n 0 then 0 else 1) /\ w_use_old_old w = negb (Nat.eqb n 0) /\
  w_new w = (if Nat.eqb n 0 then 1 else 3 / 2) /\ w_old w = (if Nat.eqb n 0 then -1 else -2) /\ (n <> 0%nat -> w_old_old w = 1 / 2).
Proof.
  intros Hn c w. pose proof (Properties_LevelSetRun.ex_clock (S n) ltac:(lia)) as (A & _ & _ & D).
  destruct (fixed_flow_clock Properties_LevelSetRun.ex_params n Properties_LevelSetRun.ex_sensible D ltac:(lia) A) as (_ & S1 & S2 & W).
  pose proof (Properties_LevelSetRun.ex_weights (S n) ltac:(lia)) as (_ & _ & U & _).
  change (tp_step_start Properties_LevelSetRun.ex_params) with 1 in *. split; [exact S1|]. split; [exact S2|].
  destruct (loop_sync Properties_LevelSetRun.ex_params fixed (fun _ => false) (S n) Properties_LevelSetRun.ex_sensible D) as [_ E]. destruct (E A) as [EA _]. rewrite EA in U.
  change (Nat.eqb (S n) 1) with (Nat.eqb n 0) in U. change (w_use_old_old w = negb (Nat.eqb n 0)) in U. rewrite U.
  split; [reflexivity|]. fold c w in W. rewrite U in W. destruct (Nat.eqb_spec n 0) as [Z|Z]; cbn [negb] in *.
  - destruct W as [(_ & W1 & W2)|(_ & W & _)]; [|discriminate W]. split; [lra|]. split; [lra|]. intros K. contradiction.
  - destruct W as [(W & _)|(_ & _ & W1 & W2 & W3)]; [discriminate W|]. split; [lra|]. split; [lra|]. intros _. lra.
Qed.
Lemma w_extrapolated n s1 t1 s0 t0 cur old : (n <= 1)%nat -> (forall i, cur i = wline s1 t1 i) -> (n <> 0%nat -> forall i, old i = wline s0 t0 i) ->
  forall i, Model_LevelSetRun.extrapolated (flow_clock fixed (S n) Properties_LevelSetRun.ex_params) cur old i =
    wline (if Nat.eqb n 0 then s1 else 2 * s1 - s0) (if Nat.eqb n 0 then t1 else 2 * t1 - t0) i.
Proof.
  intros Hn HC HO i. destruct (w_weights n Hn) as (S1 & S2 & _). unfold Model_LevelSetRun.extrapolated, Model_Bubble.Rltb. rewrite S1, S2.
  destruct (Nat.eqb_spec n 0) as [Z|Z].
  - destruct (Rlt_dec 0 0); [lra|]. apply HC.
  - destruct (Rlt_dec 0 1); [|lra]. rewrite HC, (HO Z). unfold wline. destruct i as [|[|i]]; field.
Qed.
(** two steps (Euler, BDF-2) with velocity one everywhere: 1 moves from the left to the right cell in each step, nothing enters or leaves *)
Example C122_nonvacuous : exists a b,
  mr_mesh (wP false) /\ mp_stab (wP false) = false /\ sensible Properties_LevelSetRun.ex_params /\
  mr_setup (wP false) Properties_LevelSetRun.ex_params (wline (3/2) (-1/2)) a /\
  mr_run (wP false) fixed (fun _ => false) (fun _ => wfield 1) a 2 b /\ at_end (mr_clock b) = false /\
  mr_cur b 0%nat = -5/2 /\ mr_cur b 2%nat = 7/2 /\ total (wP false) (mr_cur b) = 1.
Proof.
  set (p := Properties_LevelSetRun.ex_params). set (x0 := wline (3/2) (-1/2)).
  set (a := MkMrs (flow_clock fixed 0 p) x0 x0 x0).
  set (g1 := Model_LevelSetRun.extrapolated (flow_clock fixed 1 p) x0 x0).
  destruct (w_weights 0 ltac:(lia)) as (_ & _ & U & V & W & _). cbn [Nat.eqb negb] in *.
  destruct (w_step false 1 (Model_LevelSetRun.clock_weights (flow_clock fixed 1 p)) (-1/2) (3/2) (3/2) (-1/2) (3/2) (-1/2) (3/2) (-1/2) g1 x0 x0) as (x1 & X1 & Y1).
  { discriminate. } { exact (w_extrapolated 0 (3/2) (-1/2) 0 0 x0 x0 ltac:(lia) (fun i => eq_refl) ltac:(lia)). } { reflexivity. } { reflexivity. }
  { fold p in U, V, W. rewrite U, V, W. intros y [->| ->]; [destruct (Rlt_dec (1/4) (1/2)); [|lra]|destruct (Rlt_dec (3/4) (1/2)); [lra|]]; cbv iota; lra. }
  set (b1 := MkMrs (flow_clock fixed 1 p) (reinit_result hang x1 g1) x0 x0).
  set (g2 := Model_LevelSetRun.extrapolated (flow_clock fixed 2 p) (mr_cur b1) x0).
  destruct (w_weights 1 ltac:(lia)) as (_ & _ & U2 & V2 & W2 & Z2). cbn [Nat.eqb negb] in *. specialize (Z2 ltac:(lia)).
  destruct (w_step false 1 (Model_LevelSetRun.clock_weights (flow_clock fixed 2 p)) (-5/2) (7/2) (2 * (-1/2) - 3/2) (2 * (3/2) - -1/2) (-1/2) (3/2) (3/2) (-1/2) g2 (mr_cur b1) x0) as (x2 & X2 & Y2).
  { discriminate. } { exact (w_extrapolated 1 (-1/2) (3/2) (3/2) (-1/2) (mr_cur b1) x0 ltac:(lia) Y1 (fun _ _ => eq_refl)). } { exact Y1. } { reflexivity. }
  { fold p in U2, V2, W2, Z2. rewrite U2, V2, W2, Z2. intros y [->| ->]; [destruct (Rlt_dec (1/4) (1/2)); [|lra]|destruct (Rlt_dec (3/4) (1/2)); [lra|]]; cbv iota; lra. }
  set (b2 := MkMrs (flow_clock fixed 2 p) (reinit_result hang x2 g2) (mr_cur b1) x0).
  exists a, b2. split; [apply w_mesh|]. split; [reflexivity|]. split; [exact Properties_LevelSetRun.ex_sensible|].
  split; [split; [reflexivity|apply mri_done]|]. split.
  { apply (mrr_step _ _ _ _ _ 1 b1 b2); [apply (mrr_step _ _ _ _ _ 0 a b1); [apply mrr_start|exact (proj2 (w_clock 0 ltac:(lia)))|]|exact (proj2 (w_clock 1 ltac:(lia)))|].
    - refine (conj (w_fits 1) (conj eq_refl (conj eq_refl (conj eq_refl _)))).
      exists (fun _ => 1), x1, (mr_cur b1). split; [exact X1|]. split; [apply mri_done|reflexivity].
    - refine (conj (w_fits 1) (conj eq_refl (conj eq_refl (conj eq_refl _)))).
      exists (fun _ => 1), x2, (mr_cur b2). split; [exact X2|]. split; [apply mri_done|reflexivity]. }
  split; [exact (proj2 (w_clock 2 ltac:(lia)))|]. cbn [mr_cur b2]. split; [rewrite (Y2 0%nat); reflexivity|]. split; [rewrite (Y2 2%nat); reflexivity|].
  unfold total, over. cbn [wP mp_cells]. unfold wcells. cbn [suml e_pts]. unfold val. cbn [e_n sumn e_dof e_shape wpoint e_JxW]. rewrite (Y2 0%nat), (Y2 1%nat), (Y2 2%nat). unfold wline. lra.
Qed.
(** with stabilization, fluid at rest: one step of the run doubles the level set *)
Example C122_violation_growth_witness : exists a b,
  mr_mesh (wP true) /\ mp_stab (wP true) = true /\ total (wP true) (wline (3/2) (-1/2)) = 1 /\
  mr_setup (wP true) Properties_LevelSetRun.ex_params (wline (3/2) (-1/2)) a /\
  mr_run (wP true) fixed (fun _ => false) (fun _ => wfield 0) a 1 b /\ at_end (mr_clock b) = false /\ mr_cur b 0%nat = 3.
Proof.
  set (p := Properties_LevelSetRun.ex_params). set (x0 := wline (3/2) (-1/2)).
  set (a := MkMrs (flow_clock fixed 0 p) x0 x0 x0).
  set (g1 := Model_LevelSetRun.extrapolated (flow_clock fixed 1 p) x0 x0).
  destruct (w_weights 0 ltac:(lia)) as (_ & _ & U & V & W & _). cbn [Nat.eqb negb] in *.
  destruct (w_step true 0 (Model_LevelSetRun.clock_weights (flow_clock fixed 1 p)) 3 (-1) (3/2) (-1/2) (3/2) (-1/2) (3/2) (-1/2) g1 x0 x0) as (x1 & X1 & Y1).
  { reflexivity. } { exact (w_extrapolated 0 (3/2) (-1/2) 0 0 x0 x0 ltac:(lia) (fun i => eq_refl) ltac:(lia)). } { reflexivity. } { reflexivity. }
  { fold p in U, V, W. rewrite U, V, W. intros y [->| ->]; [destruct (Rlt_dec (1/4) (1/2)); [|lra]|destruct (Rlt_dec (3/4) (1/2)); [lra|]]; cbv iota; lra. }
  set (b1 := MkMrs (flow_clock fixed 1 p) (reinit_result hang x1 g1) x0 x0).
  exists a, b1. split; [apply w_mesh|]. split; [reflexivity|]. split.
  { unfold total, over. cbn [wP mp_cells]. unfold wcells. cbn [suml e_pts]. unfold val. cbn [e_n sumn e_dof e_shape wpoint e_JxW]. unfold x0, wline. lra. }
  split; [split; [reflexivity|apply mri_done]|]. split.
  { apply (mrr_step _ _ _ _ _ 0 a b1); [apply mrr_start|exact (proj2 (w_clock 0 ltac:(lia)))|].
    refine (conj (w_fits 0) (conj eq_refl (conj eq_refl (conj eq_refl _)))).
    exists (fun _ => 1), x1, (mr_cur b1). split; [exact X1|]. split; [apply mri_done|reflexivity]. }
  split; [exact (proj2 (w_clock 1 ltac:(lia)))|]. cbn [mr_cur b1]. rewrite (Y1 0%nat). reflexivity.
Qed.
Print Assumptions advance_balance.
Print Assumptions C122_volume.
Print Assumptions C122_fixed_step.
Print Assumptions C122_continuous.
Print Assumptions C122_violation_growth.
