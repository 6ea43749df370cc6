(** * C116: the free energy of the phase field in a fluid at rest *)
From Coq Require Import ZArith QArith Reals Lra Lia List Bool.
From Verif Require Import Num Model_TimeStepping Spec_TimeStepping Proofs_TimeStepping Proofs_TimeStepping2
  Model_TwoPhaseClocks Properties_TwoPhaseClocks SumR Model_Bubble Properties_Bubble Model_LevelSetOps Properties_LevelSetOps
  Model_PhaseField Properties_PhaseField Model_LevelSetRun Properties_LevelSetRun Model_PhaseFieldRun Properties_PhaseFieldRun.
Import ListNotations.
Local Open Scope R_scope.

(** ** Specification *)
(** the Ginzburg-Landau energy with surface tension sigma and interface width eps, int 3/2 sigma/eps (c^2-1)^2/4 + 3/4 sigma eps |grad c|^2/2,
    with the quadrature of the solver *)
Definition free_energy (s : lspace) (par : chpar) (points : list lpoint) (c : lvec) : R :=
  suml points (fun p => l_JxW p *
    (3/2 * ch_sigma par / ch_eps par * ((lvalue s p c * lvalue s p c - 1) * (lvalue s p c * lvalue s p c - 1) / 4)
     + 3/4 * ch_sigma par * ch_eps par * (sumn (l_dim s) (fun d => lgradient s p c d * lgradient s p c d) / 2))).
(** energy dissipated by the chemical potential: int |grad mu|^2 *)
Definition gradient_norm (s : lspace) (points : list lpoint) (mu : lvec) : R :=
  suml points (fun p => l_JxW p * sumn (l_dim s) (fun d => lgradient s p mu d * lgradient s p mu d)).
Definition at_rest (s : lspace) (pts : list cpoint) : Prop := forall p d, In p pts -> (d < l_dim s)%nat -> c_vel p d = 0.
(** the nonlinear equations hold at U: the residual of both blocks is zero *)
Definition converged (s : lspace) (par : chpar) (w : weights) (pts : list cpoint) (faces : list cface) (c_old c_old_old : lvec) (U : block2) : Prop :=
  forall i, (i < l_n s)%nat -> let r := fst (ch_residual s par w pts faces c_old c_old_old U) in b_c r i = 0 /\ b_w r i = 0.
(** implicit Euler: (c - c_old) / dt *)
Definition euler_weights (w : weights) (dt : R) : Prop := w_use_old_old w = false /\ w_new w = 1 / dt /\ w_old w = - (1 / dt) /\ 0 < dt.
(** no contact angle condition *)
Definition neutral (par : chpar) (faces : list cface) : Prop := ch_contact par = 0 \/ faces = [].

(** ** Pointwise inequalities *)
(** the double well: c = old value, x = new value *)
Lemma double_well x c : (x * x - 1) * (x * x - 1) / 4 - x * (x * x - 1) * (x - c) - (x - c) * (x - c) / 2 <= (c * c - 1) * (c * c - 1) / 4.
Proof.
  set (d := x - c). replace c with (x - d) by (unfold d; ring). clearbody d.
  assert (H : 0 <= (3 / 2 * (x * x) - x * d + d * d / 4) * (d * d)).
  { apply Rmult_le_pos; [|apply Rle_0_sqr]. pose proof (Rle_0_sqr (x - d / 3)) as A. pose proof (Rle_0_sqr (x - d / 2)) as B. unfold Rsqr in *. pose proof (Rle_0_sqr x) as C. unfold Rsqr in C. lra. }
  lra.
Qed.
Lemma positive_form m k f a b : 0 <= m -> 0 <= f -> k * k * m <= 8 * f -> 0 <= m * (a * a) + k * m / 2 * (a * b) + f / 2 * (b * b).
Proof.
  intros Hm Hf H. destruct (Rle_lt_or_eq_dec 0 m Hm) as [P|<-].
  - pose proof (Rle_0_sqr (a + k / 4 * b)) as A. pose proof (Rle_0_sqr b) as B. unfold Rsqr in *.
    assert (C : 0 <= m * ((a + k / 4 * b) * (a + k / 4 * b))) by (apply Rmult_le_pos; lra).
    assert (D : 0 <= (8 * f - k * k * m) * (b * b)) by (apply Rmult_le_pos; lra). lra.
  - pose proof (Rle_0_sqr b) as B. unfold Rsqr in B. assert (0 <= f * (b * b)) by (apply Rmult_le_pos; lra). lra.
Qed.

(** ** One step *)
Lemma suml_le {A} (l : list A) f g : (forall x, In x l -> f x <= g x) -> suml l f <= suml l g.
Proof.
  induction l as [|x l IH]; intros H; cbn [suml]; [lra|]. pose proof (H x (or_introl eq_refl)). assert (suml l f <= suml l g) by (apply IH; intros; apply H; right; assumption). lra.
Qed.
(** the tested equations *)
Lemma energy_tests s par w dt pts faces co coo U y : unconstrained s -> neutral par faces -> euler_weights w dt -> at_rest s pts ->
  converged s par w pts faces co coo U ->
  suml pts (fun p => l_JxW (c_pt p) * ((lvalue s (c_pt p) (b_c U) - lvalue s (c_pt p) co) * lvalue s (c_pt p) y
     + dt * ch_length par * ch_length par * ldot s (lgradient s (c_pt p) (b_w U)) (lgradient s (c_pt p) y))) = 0 /\
  suml pts (fun p => l_JxW (c_pt p) * ((lvalue s (c_pt p) (b_w U) - 3/2 * ch_sigma par / ch_eps par * (lvalue s (c_pt p) (b_c U) * (lvalue s (c_pt p) (b_c U) * lvalue s (c_pt p) (b_c U) - 1))) * lvalue s (c_pt p) y
     - 3/4 * ch_sigma par * ch_eps par * ldot s (lgradient s (c_pt p) (b_c U)) (lgradient s (c_pt p) y))) = 0.
Proof.
  intros Un Nt (W1 & W2 & W3 & W4) V0 C.
  destruct (C47_weak_form s par w pts faces co coo U (fun i => if l_con s i then 0 else y i)) as [A B].
  { intros i Hi. rewrite Hi. reflexivity. }
  assert (EY : forall p, lvalue s p (fun i => if l_con s i then 0 else y i) = lvalue s p y) by (intros p; apply lvalue_ext; intros i Hi; rewrite Un by exact Hi; reflexivity).
  assert (EG : forall p d, lgradient s p (fun i => if l_con s i then 0 else y i) d = lgradient s p y d) by (intros p d; apply lgradient_ext; intros i Hi; rewrite Un by exact Hi; reflexivity).
  split.
  - rewrite sumn_zero in A by (intros i Hi; rewrite (proj1 (C i Hi)); ring). etransitivity; [|symmetry; exact A].
    apply suml_ext. intros p Hp. rewrite EY. rewrite (ldot_ext s (lgradient s (c_pt p) (b_w U)) (lgradient s (c_pt p) (b_w U)) (lgradient s (c_pt p) (fun i => if l_con s i then 0 else y i)) (lgradient s (c_pt p) y)) by (intros; first [reflexivity|apply EG]).
    assert (Z : ldot s (lgradient s (c_pt p) (b_c U)) (c_vel p) = 0) by (unfold ldot; apply sumn_zero; intros d Hd; rewrite (V0 p d Hp Hd); ring).
    rewrite Z, W1, W2, W3. f_equal. field. lra.
  - rewrite sumn_zero in B by (intros i Hi; rewrite (proj2 (C i Hi)); ring).
    assert (F : suml faces (fun f => let v := sumn (l_n s) (fun i => if l_con s i then 0 else b_c U i * cf_matrix f i) in
       ch_contact par * ch_sigma par * (3/4) * (v * v - 1) * cf_JxW f * sumn (l_n s) (fun i => (if l_con s i then 0 else y i) * cf_matrix f i)) = 0).
    { destruct Nt as [-> | ->]; [|reflexivity]. apply suml_zero. intros f _. cbv zeta. ring. }
    rewrite F, Rplus_0_r in B. etransitivity; [|symmetry; exact B].
    apply suml_ext. intros p Hp. rewrite EY. rewrite (ldot_ext s (lgradient s (c_pt p) (b_c U)) (lgradient s (c_pt p) (b_c U)) (lgradient s (c_pt p) (fun i => if l_con s i then 0 else y i)) (lgradient s (c_pt p) y)) by (intros; first [reflexivity|apply EG]).
    ring.
Qed.

(** the energy does not increase, and what it loses is at least the dissipation left over by the step size restriction *)
Theorem C116_energy_step : forall (s : lspace) (par : chpar) (w : weights) (dt theta : R) (pts : list cpoint) (faces : list cface) (c_old c_old_old : lvec) (U : block2),
  unconstrained s -> neutral par faces -> euler_weights w dt -> at_rest s pts -> (forall p, In p pts -> 0 <= l_JxW (c_pt p)) ->
  0 < ch_sigma par -> 0 < ch_eps par -> 0 <= theta <= 1 ->
  dt * (ch_length par * ch_length par) <= (1 - theta) * (8/3 * (ch_eps par * ch_eps par * ch_eps par) / ch_sigma par) ->
  converged s par w pts faces c_old c_old_old U ->
  free_energy s par (map c_pt pts) (b_c U) + theta * (dt * (ch_length par * ch_length par) * gradient_norm s (map c_pt pts) (b_w U))
  <= free_energy s par (map c_pt pts) c_old.
Proof.
  intros s par w dt theta pts faces co coo U Un Nt Ew Vr Jp Hs He Ht Hm C.
  unfold free_energy, gradient_norm. rewrite !suml_map.
  destruct (energy_tests s par w dt pts faces co coo U (b_w U) Un Nt Ew Vr C) as [T1 _].
  set (d := fun i => b_c U i - co i) in *.
  destruct (energy_tests s par w dt pts faces co coo U d Un Nt Ew Vr C) as [T3 T2].
  destruct Ew as (_ & _ & _ & Hdt).
  set (m := dt * (ch_length par * ch_length par)) in *.
  assert (Hm0 : 0 <= m) by (unfold m; apply Rmult_le_pos; [lra|]; apply Rle_0_sqr).
  replace (dt * ch_length par * ch_length par) with m in T1, T3 by (unfold m; ring).
  set (k := 3/2 * ch_sigma par / ch_eps par) in *. set (f := 3/4 * ch_sigma par * ch_eps par) in *.
  assert (Hk : 0 < k) by (unfold k; apply Rdiv_lt_0_compat; lra).
  assert (Hf : 0 < f) by (unfold f; apply Rmult_lt_0_compat; lra).
  assert (Hb : k * k * m <= (1 - theta) * (8 * f)).
  { apply Rle_trans with (k * k * ((1 - theta) * (8/3 * (ch_eps par * ch_eps par * ch_eps par) / ch_sigma par))).
    - apply Rmult_le_compat_l; [apply Rle_0_sqr|exact Hm].
    - right. unfold k, f. field. lra. }
  clear Hm. clearbody m k f.
  assert (VD : forall p, lvalue s p d = lvalue s p (b_c U) - lvalue s p co).
  { intros p. unfold d, lvalue. rewrite <- sumn_minus. apply sumn_ext. intros; ring. }
  assert (GD : forall p e, lgradient s p d e = lgradient s p (b_c U) e - lgradient s p co e).
  { intros p e. unfold d, lgradient. rewrite <- sumn_minus. apply sumn_ext. intros; ring. }
  match goal with |- ?E1 + theta * (m * ?G) <= ?E0 => enough (H : E1 + theta * (m * G) + (suml pts (fun p => l_JxW (c_pt p) * ((lvalue s (c_pt p) (b_c U) - lvalue s (c_pt p) co) * lvalue s (c_pt p) (b_w U) + m * ldot s (lgradient s (c_pt p) (b_w U)) (lgradient s (c_pt p) (b_w U)))) * -1) + (suml pts (fun p => l_JxW (c_pt p) * ((lvalue s (c_pt p) (b_w U) - k * (lvalue s (c_pt p) (b_c U) * (lvalue s (c_pt p) (b_c U) * lvalue s (c_pt p) (b_c U) - 1))) * lvalue s (c_pt p) d
     - f * ldot s (lgradient s (c_pt p) (b_c U)) (lgradient s (c_pt p) d)))) + suml pts (fun p => l_JxW (c_pt p) * ((lvalue s (c_pt p) (b_c U) - lvalue s (c_pt p) co) * lvalue s (c_pt p) d + m * ldot s (lgradient s (c_pt p) (b_w U)) (lgradient s (c_pt p) d))) * (- k / 2) <= E0) end.
  { rewrite T1, T2, T3 in H. lra. }
  rewrite (Rmult_comm (suml pts _) (-1)), (Rmult_comm (suml pts _) (- k / 2)).
  replace (theta * (m * suml pts (fun x => l_JxW (c_pt x) * sumn (l_dim s) (fun e => lgradient s (c_pt x) (b_w U) e * lgradient s (c_pt x) (b_w U) e))))
    with ((theta * m) * suml pts (fun x => l_JxW (c_pt x) * sumn (l_dim s) (fun e => lgradient s (c_pt x) (b_w U) e * lgradient s (c_pt x) (b_w U) e))) by ring.
  rewrite <- !suml_scal, <- !suml_plus. apply suml_le. intros p Hp. rewrite VD.
  set (x := lvalue s (c_pt p) (b_c U)). set (c := lvalue s (c_pt p) co). set (mu := lvalue s (c_pt p) (b_w U)).
  pose proof (double_well x c) as DW.
  assert (G : ldot s (lgradient s (c_pt p) (b_c U)) (lgradient s (c_pt p) d) = sumn (l_dim s) (fun e => lgradient s (c_pt p) (b_c U) e * (lgradient s (c_pt p) (b_c U) e - lgradient s (c_pt p) co e))).
  { unfold ldot. apply sumn_ext. intros e _. rewrite GD. reflexivity. }
  assert (G' : ldot s (lgradient s (c_pt p) (b_w U)) (lgradient s (c_pt p) d) = sumn (l_dim s) (fun e => lgradient s (c_pt p) (b_w U) e * (lgradient s (c_pt p) (b_c U) e - lgradient s (c_pt p) co e))).
  { unfold ldot. apply sumn_ext. intros e _. rewrite GD. reflexivity. }
  rewrite G, G'. unfold ldot.
  set (gx := lgradient s (c_pt p) (b_c U)). set (gc := lgradient s (c_pt p) co). set (gm := lgradient s (c_pt p) (b_w U)).
  assert (Q : f * (sumn (l_dim s) (fun e => gx e * gx e) / 2) + theta * m * sumn (l_dim s) (fun e => gm e * gm e) - m * sumn (l_dim s) (fun e => gm e * gm e)
     - f * sumn (l_dim s) (fun e => gx e * (gx e - gc e)) - k / 2 * (m * sumn (l_dim s) (fun e => gm e * (gx e - gc e)))
     <= f * (sumn (l_dim s) (fun e => gc e * gc e) / 2)).
  { assert (X : 0 <= sumn (l_dim s) (fun e => ((1 - theta) * m) * (gm e * gm e) + k * m / 2 * (gm e * (gx e - gc e)) + f / 2 * ((gx e - gc e) * (gx e - gc e)))).
    { apply sumn_nonneg. intros e _. destruct (Req_EM_T theta 1) as [->|Nth].
      - assert (m = 0) as ->. { assert (k * k * m <= 0) by lra. assert (0 < k * k) by (apply Rmult_lt_0_compat; lra). destruct (Rle_lt_or_eq_dec 0 m Hm0) as [P|P]; [|lra]. assert (0 < k * k * m) by (apply Rmult_lt_0_compat; lra). lra. }
        assert (0 <= f / 2 * ((gx e - gc e) * (gx e - gc e))) by (apply Rmult_le_pos; [lra|apply Rle_0_sqr]). lra.
      - set (t := 1 - theta) in *. assert (Pt : 0 < t) by (unfold t; lra).
        pose proof (positive_form (t * m) (k / t) f (gm e) (gx e - gc e)) as PF.
        replace (k / t * (t * m) / 2) with (k * m / 2) in PF by (field; lra). apply PF; [apply Rmult_le_pos; lra|lra|].
        apply (Rmult_le_reg_l t); [exact Pt|]. replace (t * (k / t * (k / t) * (t * m))) with (k * k * m) by (field; lra). exact Hb. }
    rewrite !sumn_plus, !sumn_scal in X.
    assert (Y1 : sumn (l_dim s) (fun e => gx e * (gx e - gc e)) = sumn (l_dim s) (fun e => gx e * gx e) - sumn (l_dim s) (fun e => gx e * gc e)) by (rewrite <- sumn_minus; apply sumn_ext; intros; ring).
    assert (Y2 : sumn (l_dim s) (fun e => (gx e - gc e) * (gx e - gc e)) = sumn (l_dim s) (fun e => gx e * gx e) - 2 * sumn (l_dim s) (fun e => gx e * gc e) + sumn (l_dim s) (fun e => gc e * gc e)).
    { rewrite <- sumn_scal, <- sumn_minus, <- sumn_plus. apply sumn_ext. intros; ring. }
    rewrite Y2 in X. rewrite Y1. lra. }
  clearbody x c mu. set (A1 := sumn (l_dim s) (fun e => gx e * gx e)) in *. set (A2 := sumn (l_dim s) (fun e => gm e * gm e)) in *.
  set (A3 := sumn (l_dim s) (fun e => gx e * (gx e - gc e))) in *. set (A4 := sumn (l_dim s) (fun e => gm e * (gx e - gc e))) in *. set (A5 := sumn (l_dim s) (fun e => gc e * gc e)) in *.
  clearbody A1 A2 A3 A4 A5.
  assert (DW' : k * ((x * x - 1) * (x * x - 1) / 4 - x * (x * x - 1) * (x - c) - (x - c) * (x - c) / 2) <= k * ((c * c - 1) * (c * c - 1) / 4)) by (apply Rmult_le_compat_l; lra).
  specialize (Jp p Hp). set (J := l_JxW (c_pt p)) in *. clearbody J.
  apply Rle_trans with (J * (k * ((x * x - 1) * (x * x - 1) / 4 - x * (x * x - 1) * (x - c) - (x - c) * (x - c) / 2) + (f * (A1 / 2) + theta * m * A2 - m * A2 - f * A3 - k / 2 * (m * A4)))).
  - right. field.
  - apply Rmult_le_compat_l; [exact Jp|]. lra.
Qed.
Print Assumptions C116_energy_step.

(** ** The run *)
(** fixed steps, any scheme but BDF-2 (the phase field equation is then discretized by implicit Euler), the fluid at rest, the nonlinear
    equations of every step solved: the energy decreases monotonically over the whole run *)
Theorem C116_energy_run : forall (P : pf_problem) (p : ts_params RNum) points pts solver initial a n b,
  pf_mesh P points pts n -> sensible p -> (Z.of_nat n < 4294967296)%Z -> tp_scheme p <> bdf_2 ->
  neutral (pp_par P) (pp_faces P) -> (forall q, In q points -> 0 <= l_JxW q) -> 0 < ch_sigma (pp_par P) -> 0 < ch_eps (pp_par P) ->
  tp_step_start p * (ch_length (pp_par P) * ch_length (pp_par P)) <= 8/3 * (ch_eps (pp_par P) * ch_eps (pp_par P) * ch_eps (pp_par P)) / ch_sigma (pp_par P) ->
  (forall m, (m < n)%nat -> at_rest (pp_space P) (pts m)) ->
  (forall m x y, (m < n)%nat -> pf_run P fixed pts solver a m x -> pf_run P fixed pts solver a (S m) y ->
     converged (pp_space P) (pp_par P) (clock_weights (pfs_clock y)) (pts m) (pp_faces P) (b_c (pfs_cur x)) (b_c (pfs_old x)) (pfs_cur y)) ->
  pf_setup p initial a -> pf_run P fixed pts solver a n b -> at_end (pfs_clock b) = false ->
  free_energy (pp_space P) (pp_par P) points (b_c (pfs_cur b)) <= free_energy (pp_space P) (pp_par P) points (b_c initial).
Proof.
  intros P p points pts solver initial a n b (PU & Un & Hp) Sp Hn Sc Nt Jp Hs He Hm Hr Hc [Ha E0] R.
  revert Hn Hp Hr Hc. induction R as [|n b c R IH E T]; intros Hn Hp Hr Hc Eb.
  - rewrite E0. apply Rle_refl.
  - apply Rle_trans with (free_energy (pp_space P) (pp_par P) points (b_c (pfs_cur b))).
    2: { apply IH; [lia|intros m H; apply Hp; lia|intros m H; apply Hr; lia|intros m x y H; apply Hc; lia|exact E]. }
    assert (RS : pf_run P fixed pts solver a (Datatypes.S n) c) by exact (pr_step _ _ _ _ _ n b c R E T).
    destruct (pf_run_clock P p fixed pts solver a (Datatypes.S n) c Ha RS) as [C1 L].
    rewrite C1 in Eb.
    destruct (fixed_step_clock p (fun _ => false) (Datatypes.S n) Sp L Hn Eb) as (_ & W1 & W2 & _).
    destruct (loop_facts p fixed (fun _ => false) (Datatypes.S n) Sp L Eb) as (_ & G2 & G3 & _).
    assert (SB : scheme_eqb (tp_scheme p) bdf_2 = false) by (destruct (tp_scheme p); try reflexivity; contradiction (Sc eq_refl)).
    specialize (W2 ltac:(lia)). rewrite SB in W1, W2. cbn [andb] in W1, W2.
    assert (Hh : 0 < tp_step_start p) by (destruct Sp as (? & ? & _); lra).
    assert (EW : euler_weights (clock_weights (pfs_clock c)) (tp_step_start p)).
    { rewrite C1. unfold euler_weights, clock_weights. cbn [w_new w_old w_use_old_old]. unfold weight, weight_old, ts_scheme. rewrite G3, SB, W1, W2. split; [reflexivity|]. split; [reflexivity|]. split; [reflexivity|exact Hh]. }
    pose proof (C116_energy_step (pp_space P) (pp_par P) (clock_weights (pfs_clock c)) (tp_step_start p) 0 (pts n) (pp_faces P) (b_c (pfs_cur b)) (b_c (pfs_old b)) (pfs_cur c) Un Nt EW (Hr n ltac:(lia))) as S0.
    rewrite (Hp n ltac:(lia)) in S0. rewrite Rmult_0_l, Rplus_0_r in S0. apply S0; try assumption.
    + intros q Hq. apply Jp. rewrite <- (Hp n ltac:(lia)). apply in_map. exact Hq.
    + lra.
    + rewrite Rminus_0_r, Rmult_1_l. exact Hm.
    + apply (Hc n b c ltac:(lia) R RS).
Qed.
Print Assumptions C116_energy_run.

(** ** A concrete step: linear element on [0,1] with eps = 1/2, dt = 1/60: (2,-2) -> (1,-1) *)
Definition fe_pts : list cpoint := [MkCP (ex_pt (1/4)) (fun _ => 0); MkCP (ex_pt (3/4)) (fun _ => 0)].
Definition fe_weights (dt : R) : weights := MkW (1 / dt) (- (1 / dt)) 0 false.
Example C116_nonvacuous : let s := Properties_LevelSetRun.ex_space in let par := MkCH 1 1 (1/2) 0 in let U := MkB2 (ex_target 1) (ex_target (15/4)) in
  unconstrained s /\ neutral par [] /\ euler_weights (fe_weights (1/60)) (1/60) /\ at_rest s fe_pts /\ (forall p, In p fe_pts -> 0 <= l_JxW (c_pt p)) /\
  1/60 * (1 * 1) <= (1 - 9/10) * (8/3 * (1/2 * (1/2) * (1/2)) / 1) /\
  converged s par (fe_weights (1/60)) fe_pts [] (ex_target 2) (ex_target 2) U /\
  free_energy s par (map c_pt fe_pts) (ex_target 1) < free_energy s par (map c_pt fe_pts) (ex_target 2).
Proof.
  cbv zeta. refine (conj _ (conj _ (conj _ (conj _ (conj _ (conj _ (conj _ _))))))).
  - intros i _. reflexivity.
  - left. reflexivity.
  - unfold euler_weights. cbn. split; [reflexivity|]. split; [reflexivity|]. split; [reflexivity|lra].
  - intros p d [<-|[<-|[]]] _; reflexivity.
  - intros p [<-|[<-|[]]]; cbn; lra.
  - lra.
  - intros i Hi. cbv zeta. cbn [ch_residual fst b_c b_w Properties_LevelSetRun.ex_space l_con]. unfold contact_test. cbn [ch_contact].
    assert (Z : Model_PhaseField.Reqb 0 0 = true) by (apply Properties_PhaseField.Reqb_spec; reflexivity). rewrite Z.
    unfold ctest, res0_val, res0_flux, res1_val, res1_flux, factor_mobility, inv_time_weight, factor_2, factor_4. cbn.
    destruct i as [|[|i]]; [| |cbn in Hi; lia]; split; field.
  - unfold free_energy. cbn. lra.
Qed.

(** ** Violation: for larger steps the equations of a step have solutions with more energy than before, although nothing drives the fluid:
    eps = 1/8, dt L^2 = 5/156 (the bound is 1/192): (-2,2) -> (1/2,-1/2), the energy rises from 3/4 to more than 2 *)
Theorem C116_violation_large_step : exists s par w dt pts c_old U,
  partition_of_unity s (map c_pt pts) /\ unconstrained s /\ neutral par [] /\ euler_weights w dt /\ at_rest s pts /\ (forall p, In p pts -> 0 < l_JxW (c_pt p)) /\
  0 < ch_sigma par /\ 0 < ch_eps par /\
  converged s par w pts [] c_old c_old U /\
  free_energy s par (map c_pt pts) c_old = 3/4 /\ 2 < free_energy s par (map c_pt pts) (b_c U).
Proof.
  exists Properties_LevelSetRun.ex_space, (MkCH 1 1 (1/8) 0), (fe_weights (5/156)), (5/156), fe_pts, (ex_target (-2)), (MkB2 (ex_target (1/2)) (ex_target (-39/8))).
  refine (conj (proj1 (ex_mesh false)) (conj _ (conj _ (conj _ (conj _ (conj _ (conj _ (conj _ (conj _ (conj _ _)))))))))).
  - intros i _. reflexivity.
  - left. reflexivity.
  - unfold euler_weights. cbn. split; [reflexivity|]. split; [reflexivity|]. split; [reflexivity|lra].
  - intros p d [<-|[<-|[]]] _; reflexivity.
  - intros p [<-|[<-|[]]]; cbn; lra.
  - cbn. lra.
  - cbn. lra.
  - intros i Hi. cbv zeta. cbn [ch_residual fst b_c b_w Properties_LevelSetRun.ex_space l_con]. unfold contact_test. cbn [ch_contact].
    assert (Z : Model_PhaseField.Reqb 0 0 = true) by (apply Properties_PhaseField.Reqb_spec; reflexivity). rewrite Z.
    unfold ctest, res0_val, res0_flux, res1_val, res1_flux, factor_mobility, inv_time_weight, factor_2, factor_4. cbn.
    destruct i as [|[|i]]; [| |cbn in Hi; lia]; split; field.
  - unfold free_energy. cbn. field.
  - unfold free_energy. cbn. lra.
Qed.
Print Assumptions C116_violation_large_step.

(** the hypotheses of the run theorem hold for a run whose first step moves the phase field from (8/5,-8/5) to (1,-1) *)
Definition fe_P : pf_problem := MkPfp Properties_LevelSetRun.ex_space [] (MkCH (1/10) 1 (1/2) 0) true (1/1000) 1.
Definition fe_params : ts_params RNum := MkTP (N:=RNum) implicit_euler 0 10 1 10 (1/10).
Definition fe_init : block2 := MkB2 (ex_target (8/5)) (fun _ => 0).
Definition fe_a : pf_state := MkPfs (ck_ns (setup_clocks (N:=RNum) fe_params)) fe_init fe_init fe_init.
Definition fe_solver : nat -> nat -> stored -> block2 -> block2 := fun _ _ _ _ => MkB2 (ex_target (3/5)) (ex_target (-15/4)).
Lemma fe_sensible : sensible fe_params.
Proof. unfold sensible. cbn. lra. Qed.
Example C116_run_nonvacuous : exists b, pf_mesh fe_P (map c_pt fe_pts) (fun _ => fe_pts) 1 /\ sensible fe_params /\ tp_scheme fe_params <> bdf_2 /\
  neutral (pp_par fe_P) (pp_faces fe_P) /\ at_rest (pp_space fe_P) fe_pts /\ pf_setup fe_params fe_init fe_a /\
  tp_step_start fe_params * (ch_length (pp_par fe_P) * ch_length (pp_par fe_P)) <= 8/3 * (ch_eps (pp_par fe_P) * ch_eps (pp_par fe_P) * ch_eps (pp_par fe_P)) / ch_sigma (pp_par fe_P) /\
  (forall m x y, (m < 1)%nat -> pf_run fe_P fixed (fun _ => fe_pts) fe_solver fe_a m x -> pf_run fe_P fixed (fun _ => fe_pts) fe_solver fe_a (S m) y ->
     converged (pp_space fe_P) (pp_par fe_P) (clock_weights (pfs_clock y)) fe_pts (pp_faces fe_P) (b_c (pfs_cur x)) (b_c (pfs_old x)) (pfs_cur y)) /\
  pf_run fe_P fixed (fun _ => fe_pts) fe_solver fe_a 1 b /\ at_end (pfs_clock b) = false /\ b_c (pfs_cur b) 0%nat = 1.
Proof.
  assert (K : forall y, pf_time_step fe_P None fe_pts (fe_solver 0) fe_a = Some y -> pfs_clock y = next (N:=RNum) (ck_ns (setup_clocks (N:=RNum) fe_params)) /\
     forall i, b_c (pfs_cur y) i = ex_target 1 i /\ b_w (pfs_cur y) i = ex_target (15/4) i).
  { intros y T. split; [destruct (pf_step_shape _ _ _ _ _ _ T) as (E & _); rewrite E; reflexivity|]. intros i.
    unfold pf_time_step in T. cbn [pp_newton pp_max fe_P advance_cahn_hilliard newton_loop Nat.eqb negb andb] in T.
    destruct (pf_residual _ _ _ _ _) as [rhs st]. injection T as <-. cbn [pfs_cur b_sub b_c b_w b_distribute fe_solver]. unfold ldistribute, lmask. cbn [l_con Properties_LevelSetRun.ex_space pp_space b_c b_w].
    cbn [b_extrapolated b_c b_w pfs_cur pfs_old fe_a]. rewrite !extrapolated_same. unfold fe_init, ex_target. cbn [b_c b_w]. destruct i; split; lra. }
  assert (C0 : at_end (ck_ns (setup_clocks (N:=RNum) fe_params)) = false /\ settled (ck_ns (setup_clocks (N:=RNum) fe_params)) /\
     current_step_val (ck_ns (setup_clocks (N:=RNum) fe_params)) = 1 /\ now_val (ck_ns (setup_clocks (N:=RNum) fe_params)) = 0 /\ final_val (ck_ns (setup_clocks (N:=RNum) fe_params)) = 10).
  { destruct (setup_sync fe_params fe_sensible) as (A & [B _] & C). destruct (loop_sync fe_params fixed (fun _ => false) 0 fe_sensible ltac:(intros m Hm; lia)) as [_ D]. cbn [two_phase_loop] in D.
    split; [exact B|]. split; [exact (proj2 (D B))|]. rewrite A. cbn. split; [reflexivity|split; reflexivity]. }
  destruct C0 as (E0 & S0 & Q1 & Q2 & Q3).
  destruct (ex_clock_step (ck_ns (setup_clocks (N:=RNum) fe_params)) 0 S0 E0 Q1 Q2 Q3 ltac:(lra)) as (E1 & _ & _).
  destruct (pf_time_step fe_P None fe_pts (fe_solver 0) fe_a) as [b|] eqn:T; [|discriminate T].
  destruct (K b eq_refl) as [KC KB].
  assert (L : legal_run fixed (fun _ => false) 1 (setup_clocks fe_params)) by (intros m Hm; assert (m = 0%nat) as -> by lia; exact E0).
  destruct (fixed_step_clock fe_params (fun _ => false) 1 fe_sensible L ltac:(lia) E1) as (_ & W1 & W2 & _).
  destruct (loop_facts fe_params fixed (fun _ => false) 1 fe_sensible L E1) as (_ & _ & G3 & _).
  exists b. refine (conj _ (conj fe_sensible (conj _ (conj _ (conj _ (conj _ (conj _ (conj _ (conj _ (conj _ _)))))))))).
  - split; [exact (proj1 (ex_mesh false))|]. split; [intros i _; reflexivity|]. intros; reflexivity.
  - discriminate.
  - left. reflexivity.
  - intros p d [<-|[<-|[]]] _; reflexivity.
  - split; reflexivity.
  - cbn. lra.
  - intros m x y Hm Rx Ry. assert (m = 0%nat) as -> by lia. inversion Rx; subst x. clear Rx Hm. inversion Ry as [|n' b' c' R1 E2 T2]. subst n' c'. inversion R1; subst b'.
    change (fixed 0) with (@None R) in T2. rewrite T in T2. injection T2 as <-. clear Ry R1 E2.
    assert (EW : clock_weights (pfs_clock b) = MkW 1 (-1) (w_old_old (clock_weights (pfs_clock b))) false).
    { rewrite KC. specialize (W2 ltac:(lia)). unfold clock_weights. unfold weight, weight_old, ts_scheme. cbn [w_old_old].
      change (ck_ns (two_phase_loop (N:=RNum) fixed (fun _ => false) 1 (setup_clocks fe_params))) with (next (N:=RNum) (ck_ns (setup_clocks (N:=RNum) fe_params))) in W1, W2, G3.
      rewrite W1, W2, G3. cbn. f_equal; lra. }
    rewrite EW. clear EW. set (woo := w_old_old _). clearbody woo.
    destruct (KB 0%nat) as [B1 B2]. destruct (KB 1%nat) as [B3 B4].
    intros i Hi. cbv zeta. cbn [ch_residual fst b_c b_w Properties_LevelSetRun.ex_space l_con pp_space pp_par fe_P pp_faces]. unfold contact_test. cbn [ch_contact].
    assert (Z : Model_PhaseField.Reqb 0 0 = true) by (apply Properties_PhaseField.Reqb_spec; reflexivity). rewrite Z.
    unfold ctest, res0_val, res0_flux, res1_val, res1_flux, factor_mobility, inv_time_weight, factor_2, factor_4. cbn. rewrite B1, B2, B3, B4. cbn.
    destruct i as [|[|i]]; [| |cbn in Hi; lia]; split; field.
  - apply (pr_step _ _ _ _ _ 0 fe_a b); [apply pr_start|exact E0|exact T].
  - rewrite KC. exact E1.
  - rewrite (proj1 (KB 0%nat)). reflexivity.
Qed.
