(** * Cahn-Hilliard solver: C47 (Newton operator), C65 (mass), C66 (Newton loop), C67 (phase at inflow boundaries) *)
From Coq Require Import Reals List Bool Lra Lia.
From Verif Require Import SumR Model_Bubble Properties_Bubble Model_LevelSetOps Properties_LevelSetOps Model_PhaseField.
Import ListNotations.
Open Scope R_scope.

(** ** C47: the linear operator is the derivative of the residual *)
Definition admissible (s : lspace) (D : block2) : Prop := forall i, l_con s i = true -> b_c D i = 0 /\ b_w D i = 0.
(** what is left after the linear part *)
Definition ch_remainder (s : lspace) (par : chpar) (pts : list cpoint) (faces : list cface) (U D : block2) (i : nat) : R :=
  if l_con s i then 0
  else suml pts (fun p => let c := lvalue s (c_pt p) (b_c U) in let d := lvalue s (c_pt p) (b_c D) in
                 l_JxW (c_pt p) * (- (15/10 * ch_sigma par / ch_eps par) * (3 * c * (d * d) + d * d * d)) * l_shape (c_pt p) i)
       + suml faces (fun f => ch_contact par * ch_sigma par * (75/100) * (face_value s f (b_c D) * face_value s f (b_c D)) * cf_JxW f * cf_matrix f i).

Lemma lvalue_scal s p t U : lvalue s p (fun i => t * U i) = t * lvalue s p U.
Proof. unfold lvalue. rewrite <- sumn_scal. apply sumn_ext; intros; ring. Qed.
Lemma lgradient_scal s p t U d : lgradient s p (fun i => t * U i) d = t * lgradient s p U d.
Proof. unfold lgradient. rewrite <- sumn_scal. apply sumn_ext; intros; ring. Qed.
Lemma face_value_add s f U V : face_value s f (ladd U V) = face_value s f U + face_value s f V.
Proof. unfold face_value, ladd, lmask. rewrite <- sumn_plus. apply sumn_ext; intros. destruct (l_con s i); ring. Qed.
Lemma face_value_scal s f t U : face_value s f (fun i => t * U i) = t * face_value s f U.
Proof. unfold face_value, lmask. rewrite <- sumn_scal. apply sumn_ext; intros. destruct (l_con s i); ring. Qed.
Lemma lvalue_mask s p U : (forall i, l_con s i = true -> U i = 0) -> lvalue s p (lmask s U) = lvalue s p U.
Proof. intros H. apply lvalue_ext. intros i _. unfold lmask. destruct (l_con s i) eqn:E; [symmetry; auto|reflexivity]. Qed.
Lemma lgradient_mask s p U d : (forall i, l_con s i = true -> U i = 0) -> lgradient s p (lmask s U) d = lgradient s p U d.
Proof. intros H. apply lgradient_ext. intros i _. unfold lmask. destruct (l_con s i) eqn:E; [symmetry; auto|reflexivity]. Qed.
Lemma ldot_scal_r s k a b : ldot s a (fun d => k * b d) = k * ldot s a b.
Proof. unfold ldot. rewrite <- sumn_scal. apply sumn_ext; intros; ring. Qed.
Lemma Reqb_spec x y : Reqb x y = true <-> x = y.
Proof. unfold Reqb. destruct (Req_EM_T x y); split; congruence. Qed.

(** first block: affine, so one step is exact *)
Lemma ch_block0 s par w pts faces co coo U D i : admissible s D ->
  b_c (fst (ch_residual s par w pts faces co coo (b_add U D))) i =
  b_c (fst (ch_residual s par w pts faces co coo U)) i + b_c (ch_vmult s par w pts faces (snd (ch_residual s par w pts faces co coo U)) D) i.
Proof.
  intros HD. cbn [ch_residual ch_vmult fst snd b_c]. destruct (l_con s i) eqn:Ec; [rewrite (proj1 (HD i Ec)); ring|].
  unfold ctest. rewrite <- suml_plus. apply suml_ext. intros p _. rewrite <- Rmult_plus_distr_l. f_equal.
  assert (Hc : forall j, l_con s j = true -> b_c D j = 0) by (intros j Hj; apply (HD j Hj)).
  assert (Hw : forall j, l_con s j = true -> b_w D j = 0) by (intros j Hj; apply (HD j Hj)).
  unfold res0_val, lin0_val, res0_flux, lin0_flux. cbn [st_vel b_add b_c b_w].
  rewrite !ldot_scal. rewrite lvalue_add, (lvalue_mask s (c_pt p) (b_c D) Hc).
  rewrite (ldot_ext s (lgradient s (c_pt p) (ladd (b_c U) (b_c D))) (fun d => lgradient s (c_pt p) (b_c U) d + lgradient s (c_pt p) (b_c D) d) (c_vel p) (c_vel p)) by (intros; try apply lgradient_add; reflexivity).
  rewrite (ldot_ext s (lgradient s (c_pt p) (ladd (b_w U) (b_w D))) (fun d => lgradient s (c_pt p) (b_w U) d + lgradient s (c_pt p) (b_w D) d) (l_grad (c_pt p) i) (l_grad (c_pt p) i)) by (intros; try apply lgradient_add; reflexivity).
  rewrite (ldot_ext s (lgradient s (c_pt p) (lmask s (b_c D))) (lgradient s (c_pt p) (b_c D)) (c_vel p) (c_vel p)) by (intros; try (apply lgradient_mask; exact Hc); reflexivity).
  rewrite (ldot_ext s (lgradient s (c_pt p) (lmask s (b_w D))) (lgradient s (c_pt p) (b_w D)) (l_grad (c_pt p) i) (l_grad (c_pt p) i)) by (intros; try (apply lgradient_mask; exact Hw); reflexivity).
  rewrite !ldot_add. ring.
Qed.
Lemma ch_block1 s par w pts faces co coo U D i : admissible s D ->
  b_w (fst (ch_residual s par w pts faces co coo (b_add U D))) i =
  b_w (fst (ch_residual s par w pts faces co coo U)) i + b_w (ch_vmult s par w pts faces (snd (ch_residual s par w pts faces co coo U)) D) i
  + ch_remainder s par pts faces U D i.
Proof.
  intros HD. cbn [ch_residual ch_vmult fst snd b_w]. unfold ch_remainder. destruct (l_con s i) eqn:Ec; [rewrite (proj2 (HD i Ec)); ring|].
  assert (Hc : forall j, l_con s j = true -> b_c D j = 0) by (intros j Hj; apply (HD j Hj)).
  assert (Hw : forall j, l_con s j = true -> b_w D j = 0) by (intros j Hj; apply (HD j Hj)).
  match goal with |- ?a + ?b = ?a1 + ?b1 + (?a2 + ?b2) + (?a3 + ?b3) => enough (a = a1 + a2 + a3 /\ b = b1 + b2 + b3) by lra end. split.
  - unfold ctest. rewrite <- !suml_plus. apply suml_ext. intros p _. unfold res1_val, lin1_val, res1_flux, lin1_flux, factor_2. cbn [st_c b_add b_c b_w]. cbv zeta.
    rewrite !ldot_scal. rewrite !lvalue_add, (lvalue_mask s (c_pt p) (b_c D) Hc), (lvalue_mask s (c_pt p) (b_w D) Hw).
    rewrite (ldot_ext s (lgradient s (c_pt p) (ladd (b_c U) (b_c D))) (fun d => lgradient s (c_pt p) (b_c U) d + lgradient s (c_pt p) (b_c D) d) (l_grad (c_pt p) i) (l_grad (c_pt p) i)) by (intros; try apply lgradient_add; reflexivity).
    rewrite (ldot_ext s (lgradient s (c_pt p) (lmask s (b_c D))) (lgradient s (c_pt p) (b_c D)) (l_grad (c_pt p) i) (l_grad (c_pt p) i)) by (intros; try (apply lgradient_mask; exact Hc); reflexivity).
    rewrite !ldot_add. ring.
  - unfold contact_test. destruct (Reqb (ch_contact par) 0) eqn:Eq.
    + apply Reqb_spec in Eq. rewrite suml_zero; [ring|]. intros f _. rewrite Eq. ring.
    + rewrite <- !suml_plus. apply suml_ext. intros f _. unfold contact_res, contact_lin. cbn [st_face b_add b_c]. cbv zeta. rewrite face_value_add. field.
Qed.
(** exact expansion of the residual around every state *)
Theorem C47_expansion : forall s par w pts faces c_old c_old_old U D i, admissible s D ->
  let R := ch_residual s par w pts faces c_old c_old_old in
  let J := ch_vmult s par w pts faces (snd (R U)) in
  b_c (fst (R (b_add U D))) i = b_c (fst (R U)) i + b_c (J D) i /\
  b_w (fst (R (b_add U D))) i = b_w (fst (R U)) i + b_w (J D) i + ch_remainder s par pts faces U D i.
Proof. intros. split; [apply ch_block0|apply ch_block1]; assumption. Qed.
(** the linear operator scales *)
Lemma ch_vmult_scal s par w pts faces st t D i : admissible s D ->
  b_c (ch_vmult s par w pts faces st (b_scal t D)) i = t * b_c (ch_vmult s par w pts faces st D) i /\
  b_w (ch_vmult s par w pts faces st (b_scal t D)) i = t * b_w (ch_vmult s par w pts faces st D) i.
Proof.
  intros HD.
  assert (Hc : forall j, l_con s j = true -> b_c D j = 0) by (intros j Hj; apply (HD j Hj)).
  assert (Hw : forall j, l_con s j = true -> b_w D j = 0) by (intros j Hj; apply (HD j Hj)).
  assert (Hc' : forall j, l_con s j = true -> t * b_c D j = 0) by (intros j Hj; rewrite Hc by exact Hj; ring).
  assert (Hw' : forall j, l_con s j = true -> t * b_w D j = 0) by (intros j Hj; rewrite Hw by exact Hj; ring).
  cbn [ch_vmult b_scal b_c b_w]. split; (destruct (l_con s i); [reflexivity|]).
  - unfold ctest. rewrite <- suml_scal. apply suml_ext. intros p _. unfold lin0_val, lin0_flux. cbn [b_scal b_c b_w]. rewrite !ldot_scal.
    rewrite (lvalue_mask _ _ _ Hc'), (lvalue_mask _ _ _ Hc), lvalue_scal.
    rewrite (ldot_ext s (lgradient s (c_pt p) (lmask s (fun i0 => t * b_c D i0))) (fun d => t * lgradient s (c_pt p) (lmask s (b_c D)) d) (st_vel st p) (st_vel st p)).
    2: { intros d _. rewrite (lgradient_mask _ _ _ _ Hc'), (lgradient_mask _ _ _ _ Hc), lgradient_scal. reflexivity. } 2: reflexivity.
    rewrite (ldot_ext s (lgradient s (c_pt p) (lmask s (fun i0 => t * b_w D i0))) (fun d => t * lgradient s (c_pt p) (lmask s (b_w D)) d) (l_grad (c_pt p) i) (l_grad (c_pt p) i)).
    2: { intros d _. rewrite (lgradient_mask _ _ _ _ Hw'), (lgradient_mask _ _ _ _ Hw), lgradient_scal. reflexivity. } 2: reflexivity.
    rewrite !ldot_scal. ring.
  - rewrite Rmult_plus_distr_l. f_equal.
    + unfold ctest. rewrite <- suml_scal. apply suml_ext. intros p _. unfold lin1_val, lin1_flux. cbn [b_scal b_c b_w]. rewrite !ldot_scal.
      rewrite (lvalue_mask _ _ _ Hc'), (lvalue_mask _ _ _ Hc), (lvalue_mask _ _ _ Hw'), (lvalue_mask _ _ _ Hw), !lvalue_scal.
      rewrite (ldot_ext s (lgradient s (c_pt p) (lmask s (fun i0 => t * b_c D i0))) (fun d => t * lgradient s (c_pt p) (lmask s (b_c D)) d) (l_grad (c_pt p) i) (l_grad (c_pt p) i)).
      2: { intros d _. rewrite (lgradient_mask _ _ _ _ Hc'), (lgradient_mask _ _ _ _ Hc), lgradient_scal. reflexivity. } 2: reflexivity.
      rewrite !ldot_scal. ring.
    + unfold contact_test. destruct (Reqb _ _); [ring|]. rewrite <- suml_scal. apply suml_ext. intros f _. unfold contact_lin. cbn [b_scal b_c]. rewrite face_value_scal. ring.
Qed.
Lemma deriv_poly a b q c : derivable_pt_lim (fun t => a + t * b + (t * t) * (q + t * c)) 0 b.
Proof.
  intros eps He. assert (Hk : 0 < Rabs q + Rabs c + 1) by (pose proof (Rabs_pos q); pose proof (Rabs_pos c); lra).
  assert (Hd : 0 < Rmin 1 (eps / (Rabs q + Rabs c + 1))) by (apply Rmin_pos; [lra|apply Rdiv_lt_0_compat; lra]).
  exists (mkposreal _ Hd). intros h Hh Hs. cbn in Hs. replace ((a + (0 + h) * b + (0 + h) * (0 + h) * (q + (0 + h) * c) - (a + 0 * b + 0 * 0 * (q + 0 * c))) / h - b) with (h * (q + h * c)) by (field; exact Hh).
  rewrite Rabs_mult. assert (H1 : Rabs h < 1) by (eapply Rlt_le_trans; [exact Hs|apply Rmin_l]).
  assert (H2 : Rabs h < eps / (Rabs q + Rabs c + 1)) by (eapply Rlt_le_trans; [exact Hs|apply Rmin_r]).
  assert (H3 : Rabs (q + h * c) <= Rabs q + Rabs c).
  { eapply Rle_trans; [apply Rabs_triang|]. rewrite Rabs_mult. pose proof (Rabs_pos c). pose proof (Rabs_pos h). nra. }
  apply Rle_lt_trans with (Rabs h * (Rabs q + Rabs c)); [apply Rmult_le_compat_l; [apply Rabs_pos|exact H3]|].
  apply Rle_lt_trans with (Rabs h * (Rabs q + Rabs c + 1)); [apply Rmult_le_compat_l; [apply Rabs_pos|lra]|].
  apply (Rmult_lt_compat_r (Rabs q + Rabs c + 1)) in H2; [|exact Hk]. replace (eps / (Rabs q + Rabs c + 1) * (Rabs q + Rabs c + 1)) with eps in H2 by (field; lra). exact H2.
Qed.
Lemma remainder_scal s par pts faces U D i : exists q c, forall t, ch_remainder s par pts faces U (b_scal t D) i = (t * t) * (q + t * c).
Proof.
  exists (if l_con s i then 0 else suml pts (fun p => l_JxW (c_pt p) * (- (15/10 * ch_sigma par / ch_eps par) * (3 * lvalue s (c_pt p) (b_c U) * (lvalue s (c_pt p) (b_c D) * lvalue s (c_pt p) (b_c D)))) * l_shape (c_pt p) i)
     + suml faces (fun f => ch_contact par * ch_sigma par * (75/100) * (face_value s f (b_c D) * face_value s f (b_c D)) * cf_JxW f * cf_matrix f i)),
   (if l_con s i then 0 else suml pts (fun p => l_JxW (c_pt p) * (- (15/10 * ch_sigma par / ch_eps par) * (lvalue s (c_pt p) (b_c D) * lvalue s (c_pt p) (b_c D) * lvalue s (c_pt p) (b_c D))) * l_shape (c_pt p) i)).
  intros t. unfold ch_remainder. destruct (l_con s i); [ring|]. cbn [b_scal b_c]. cbv zeta.
  rewrite Rplus_assoc, (Rplus_comm (suml faces _)), <- Rplus_assoc, Rmult_plus_distr_l. rewrite <- (suml_scal pts t), <- suml_plus, <- !suml_scal. f_equal.
  - apply suml_ext. intros p _. rewrite lvalue_scal. ring.
  - apply suml_ext. intros f _. rewrite face_value_scal. ring.
Qed.
(** Gateaux derivative in every direction the solver may take, in every entry of both blocks *)
Theorem C47_newton_operator_is_derivative : forall s par w pts faces c_old c_old_old U D i, admissible s D ->
  let R := ch_residual s par w pts faces c_old c_old_old in
  let J := ch_vmult s par w pts faces (snd (R U)) in
  derivable_pt_lim (fun t => b_c (fst (R (b_add U (b_scal t D)))) i) 0 (b_c (J D) i) /\
  derivable_pt_lim (fun t => b_w (fst (R (b_add U (b_scal t D)))) i) 0 (b_w (J D) i).
Proof.
  intros s par w pts faces co coo U D i HD. cbv zeta.
  assert (HS : forall t, admissible s (b_scal t D)) by (intros t j Hj; destruct (HD j Hj) as [A B]; cbn [b_scal b_c b_w]; rewrite A, B; split; ring).
  destruct (remainder_scal s par pts faces U D i) as (q & c & Hr). split.
  - eapply derivable_pt_lim_ext with (f := fun t => b_c (fst (ch_residual s par w pts faces co coo U)) i + t * b_c (ch_vmult s par w pts faces (snd (ch_residual s par w pts faces co coo U)) D) i + t * t * (0 + t * 0)); [|apply deriv_poly].
    intros t. rewrite (ch_block0 s par w pts faces co coo U _ i (HS t)). rewrite (proj1 (ch_vmult_scal s par w pts faces _ t D i HD)). ring.
  - eapply derivable_pt_lim_ext with (f := fun t => b_w (fst (ch_residual s par w pts faces co coo U)) i + t * b_w (ch_vmult s par w pts faces (snd (ch_residual s par w pts faces co coo U)) D) i + t * t * (q + t * c)); [|apply deriv_poly].
    intros t. rewrite (ch_block1 s par w pts faces co coo U _ i (HS t)). rewrite (proj2 (ch_vmult_scal s par w pts faces _ t D i HD)). rewrite Hr. ring.
Qed.
Print Assumptions C47_expansion.
Print Assumptions C47_newton_operator_is_derivative.

(** ** C65: balance of the conserved quantity *)
Definition lpoints (pts : list cpoint) : list lpoint := map c_pt pts.
(** the update solves the linear system of the Newton step at U *)
Definition solves_newton (s : lspace) (par : chpar) (w : weights) (pts : list cpoint) (faces : list cface) (c_old c_old_old : lvec) (U inc : block2) : Prop :=
  forall i, (i < l_n s)%nat ->
    let '(rhs, st) := ch_residual s par w pts faces c_old c_old_old U in
    b_c (ch_vmult s par w pts faces st inc) i = b_c rhs i /\ b_w (ch_vmult s par w pts faces st inc) i = b_w rhs i.
(** integral of the convective term *)
Definition convected (s : lspace) (pts : list cpoint) (c : lvec) : R :=
  suml pts (fun p => l_JxW (c_pt p) * ldot s (lgradient s (c_pt p) c) (c_vel p)).
Lemma total_ctest s pts val flux : partition_of_unity s (lpoints pts) ->
  sumn (l_n s) (ctest s pts val flux) = suml pts (fun p => l_JxW (c_pt p) * val p).
Proof.
  intros [H1 H2]. unfold ctest. rewrite <- suml_sumn. apply suml_ext. intros p Hp.
  assert (Hi : In (c_pt p) (lpoints pts)) by (apply in_map; exact Hp).
  rewrite sumn_scal. rewrite sumn_plus, sumn_scal, (H1 _ Hi). f_equal. unfold ldot. rewrite sumn_swap.
  rewrite (sumn_zero (l_dim s)); [ring|]. intros d Hd. rewrite sumn_scal, (H2 _ _ Hi Hd). ring.
Qed.
Lemma integral_lpoints s pts U : integral s (lpoints pts) U = suml pts (fun p => l_JxW (c_pt p) * lvalue s (c_pt p) U).
Proof. unfold integral, lpoints. apply suml_map. Qed.
Lemma b_sub_neg U V : forall i, b_c (b_sub U V) i = b_c (b_add U (b_scal (-1) V)) i /\ b_w (b_sub U V) i = b_w (b_add U (b_scal (-1) V)) i.
Proof. intros i. unfold b_sub, b_add, b_scal, ladd. cbn [b_c b_w]. split; ring. Qed.
Lemma ch_residual_ext s par w pts faces co coo U V : (forall i, b_c U i = b_c V i) -> (forall i, b_w U i = b_w V i) ->
  forall i, b_c (fst (ch_residual s par w pts faces co coo U)) i = b_c (fst (ch_residual s par w pts faces co coo V)) i.
Proof.
  intros Hc Hw i. cbn [ch_residual fst b_c]. destruct (l_con s i); [reflexivity|]. unfold ctest. apply suml_ext. intros p _. unfold res0_val, res0_flux.
  rewrite !ldot_scal. rewrite (lvalue_ext s (c_pt p) (b_c U) (b_c V)) by auto.
  rewrite (ldot_ext s (lgradient s (c_pt p) (b_c U)) (lgradient s (c_pt p) (b_c V)) (c_vel p) (c_vel p)) by (intros; try (apply lgradient_ext; auto); reflexivity).
  rewrite (ldot_ext s (lgradient s (c_pt p) (b_w U)) (lgradient s (c_pt p) (b_w V)) (l_grad (c_pt p) i) (l_grad (c_pt p) i)) by (intros; try (apply lgradient_ext; auto); reflexivity).
  reflexivity.
Qed.
(** whatever the state before: after one exact solve the first block of the residual vanishes *)
Theorem C65_first_block_solved : forall s par w pts faces c_old c_old_old U inc i, (i < l_n s)%nat ->
  solves_newton s par w pts faces c_old c_old_old U inc ->
  b_c (fst (ch_residual s par w pts faces c_old c_old_old (b_sub U (b_distribute s inc)))) i = 0.
Proof.
  intros s par w pts faces co coo U inc i Hi Hs.
  rewrite (ch_residual_ext s par w pts faces co coo _ (b_add U (b_scal (-1) (b_distribute s inc)))) by (intros; apply b_sub_neg).
  assert (HD : admissible s (b_distribute s inc)) by (intros j Hj; unfold b_distribute, ldistribute, lmask; cbn [b_c b_w]; rewrite Hj; split; reflexivity).
  assert (HD' : admissible s (b_scal (-1) (b_distribute s inc))) by (intros j Hj; destruct (HD j Hj) as [A B]; cbn [b_scal b_c b_w]; rewrite A, B; split; ring).
  rewrite (ch_block0 s par w pts faces co coo U _ i HD'), (proj1 (ch_vmult_scal s par w pts faces _ (-1) _ i HD)).
  specialize (Hs i Hi). destruct Hs as [Hs _]. cbn [ch_residual fst snd b_c] in *. unfold ch_vmult in *. cbn [b_c] in *.
  destruct (l_con s i) eqn:Ec; [unfold b_distribute, ldistribute, lmask; cbn [b_c]; rewrite Ec; ring|].
  rewrite <- Hs. unfold ctest. rewrite <- suml_scal. rewrite <- suml_plus. apply suml_zero. intros p _.
  unfold lin0_val, lin0_flux, b_distribute, ldistribute. cbn [b_c b_w st_vel]. rewrite !ldot_scal.
  assert (M : forall (V : lvec), lvalue s (c_pt p) (lmask s (lmask s V)) = lvalue s (c_pt p) (lmask s V)) by (intros V; apply lvalue_ext; intros j _; unfold lmask; destruct (l_con s j); reflexivity).
  assert (G : forall (V : lvec) d, lgradient s (c_pt p) (lmask s (lmask s V)) d = lgradient s (c_pt p) (lmask s V) d) by (intros V d; apply lgradient_ext; intros j _; unfold lmask; destruct (l_con s j); reflexivity).
  rewrite M. rewrite (ldot_ext s (lgradient s (c_pt p) (lmask s (lmask s (b_c inc)))) (lgradient s (c_pt p) (lmask s (b_c inc))) (c_vel p) (c_vel p)) by (intros; try apply G; reflexivity).
  rewrite (ldot_ext s (lgradient s (c_pt p) (lmask s (lmask s (b_w inc)))) (lgradient s (c_pt p) (lmask s (b_w inc))) (l_grad (c_pt p) i) (l_grad (c_pt p) i)) by (intros; try apply G; reflexivity).
  ring.
Qed.
(** discrete balance of the phase field after one Newton step from an arbitrary state *)
Theorem C65_balance : forall s par w pts faces c_old c_old_old U inc,
  partition_of_unity s (lpoints pts) -> unconstrained s -> w_new w <> 0 ->
  solves_newton s par w pts faces c_old c_old_old U inc ->
  let V := b_sub U (b_distribute s inc) in
  w_new w * integral s (lpoints pts) (b_c V) + w_old w * integral s (lpoints pts) c_old
  + (if w_use_old_old w then w_old_old w * integral s (lpoints pts) c_old_old else 0) + convected s pts (b_c V) = 0.
Proof.
  intros s par w pts faces co coo U inc Hp Hu Hw Hs V.
  pose proof (fun i Hi => C65_first_block_solved s par w pts faces co coo U inc i Hi Hs) as Z. fold V in Z.
  assert (T : sumn (l_n s) (ctest s pts (res0_val s w V co coo) (res0_flux s par w V)) = 0).
  { rewrite (sumn_ext _ _ (fun _ => 0)); [apply sumn_0|]. intros i Hi. specialize (Z i Hi). cbn [ch_residual fst b_c] in Z. rewrite (Hu i Hi) in Z. exact Z. }
  rewrite total_ctest in T by exact Hp. rewrite !integral_lpoints. unfold convected.
  match type of T with ?X = 0 => transitivity (w_new w * X); [|rewrite T; ring] end. unfold res0_val, inv_time_weight. clearbody V. clear T Z.
  assert (E : w_new w * (1 / w_new w) = 1) by (field; exact Hw). destruct (w_use_old_old w).
  - rewrite <- !suml_scal. rewrite <- !suml_plus. apply suml_ext. intros p _. field. exact Hw.
  - rewrite Rplus_0_r. rewrite <- !suml_scal. rewrite <- !suml_plus. apply suml_ext. intros p _. field. exact Hw.
Qed.
(** conservation *)
Theorem C65_mass_conserved : forall s par w pts faces c_old c_old_old U inc,
  partition_of_unity s (lpoints pts) -> unconstrained s -> w_new w <> 0 ->
  w_new w + w_old w + (if w_use_old_old w then w_old_old w else 0) = 0 ->
  (w_use_old_old w = true -> integral s (lpoints pts) c_old_old = integral s (lpoints pts) c_old) ->
  solves_newton s par w pts faces c_old c_old_old U inc ->
  let V := b_sub U (b_distribute s inc) in
  convected s pts (b_c V) = 0 ->
  integral s (lpoints pts) (b_c V) = integral s (lpoints pts) c_old.
Proof.
  intros s par w pts faces co coo U inc Hp Hu Hw Hsum Ho Hs V Hc.
  pose proof (C65_balance s par w pts faces co coo U inc Hp Hu Hw Hs) as B. cbv zeta in B. fold V in B. rewrite Hc in B.
  apply (Rmult_eq_reg_l (w_new w)); [|exact Hw]. destruct (w_use_old_old w); [rewrite Ho in B by reflexivity|]; nra.
Qed.
(** zero velocity is enough *)
Lemma C65_no_flow : forall s pts c, (forall p d, In p pts -> c_vel p d = 0) -> convected s pts c = 0.
Proof. intros s pts c H. apply suml_zero. intros p Hp. unfold ldot. rewrite sumn_zero; [ring|]. intros d _. rewrite H by exact Hp. ring. Qed.
Print Assumptions C65_first_block_solved.
Print Assumptions C65_balance.
Print Assumptions C65_mass_conserved.
Definition ex_cpoints (v : R) : list cpoint := map (fun p => MkCP p (fun _ => v)) ex_points.
Definition ex_par : chpar := MkCH 1 (4/3) 1 0.
Definition ex_w : weights := MkW 1 (-1) 0 false.
Definition ex_old : lvec := ex_vec 1 (-1).
Definition ex_inc : block2 := MkB2 (ex_vec (16/33) (-16/33)) (ex_vec (-4/33) (4/33)).
Lemma contact_nil s par ev i : contact_test s par [] ev i = 0.
Proof. unfold contact_test. destruct (Reqb _ _); reflexivity. Qed.
Example C65_nonvacuous : let s := ex_space (fun _ => false) in
  partition_of_unity s (lpoints (ex_cpoints 0)) /\ unconstrained s /\ w_new ex_w <> 0 /\ w_new ex_w + w_old ex_w + (if w_use_old_old ex_w then w_old_old ex_w else 0) = 0 /\
  solves_newton s ex_par ex_w (ex_cpoints 0) [] ex_old ex_old (MkB2 ex_old (fun _ => 0)) ex_inc /\ convected s (ex_cpoints 0) (b_c (b_sub (MkB2 ex_old (fun _ => 0)) (b_distribute s ex_inc))) = 0 /\ b_c ex_inc 0%nat <> 0.
Proof.
  cbv zeta. split; [|split; [|split; [|split; [|split; [|split]]]]].
  - split; intros p; [intros [<-|[<-|[]]]|intros d [<-|[<-|[]]] Hd]; cbn; lra.
  - intros i _. reflexivity.
  - cbn. lra.
  - cbn. lra.
  - intros [|[|i]] Hi; cbn in Hi; try lia; cbn [ch_residual ch_vmult fst snd b_c b_w l_con ex_space]; rewrite !contact_nil; split;
      unfold ctest, lin0_val, lin0_flux, lin1_val, lin1_flux, res0_val, res0_flux, res1_val, res1_flux, factor_2, factor_4, factor_mobility, inv_time_weight, ldot, lvalue, lgradient, lmask, ex_old, ex_inc, ex_vec; cbn; lra.
  - apply C65_no_flow. intros p d [<-|[<-|[]]]; reflexivity.
  - cbn. lra.
Qed.
(** with flow through the boundary or Dirichlet values nothing of the kind holds: an admissible example of C47 with a contact angle *)
Example C47_nonvacuous : exists s par pts faces U D,
  admissible s D /\ ch_contact par <> 0 /\ (exists i, l_con s i = true) /\
  ch_remainder s par pts faces U D 1%nat <> 0 /\ b_w (ch_vmult s par ex_w pts faces (snd (ch_residual s par ex_w pts faces ex_old ex_old U)) D) 1%nat <> 0.
Proof.
  exists (ex_space (fun i => Nat.eqb i 0)), (MkCH 1 (4/3) 1 1), (ex_cpoints 1), [MkCF 1 (fun i => if Nat.eqb i 1 then 1 else 0)], (MkB2 (ex_vec 1 1) (ex_vec 0 0)), (MkB2 (ex_vec 0 1) (ex_vec 0 0)).
  split; [|split; [|split; [|split]]].
  - intros [|[|i]] H; cbn in *; try discriminate. split; reflexivity.
  - cbn. lra.
  - exists 0%nat. reflexivity.
  - unfold ch_remainder, face_value, lmask, lvalue, ex_vec. cbn. lra.
  - unfold ch_vmult, contact_test. cbn -[Reqb]. assert (E : Reqb 1 0 = false) by (unfold Reqb; destruct (Req_EM_T 1 0); [lra|reflexivity]). rewrite E.
    unfold ctest, lin1_val, lin1_flux, contact_lin, face_value, factor_2, factor_4, ldot, lvalue, lgradient, lmask, ex_vec. cbn. lra.
Qed.

(** ** C66: the Newton loop *)
(** the sequence of iterates *)
Fixpoint iterate (residual : block2 -> block2 * stored) (distribute : block2 -> block2) (solver : nat -> stored -> block2 -> block2) (U : block2) (k : nat) : block2 :=
  match k with
  | O => U
  | S k => let V := iterate residual distribute solver U k in b_sub V (distribute (solver k (snd (residual V)) (fst (residual V))))
  end.
Lemma Rltb_spec x y : Rltb x y = true <-> x < y.
Proof. unfold Rltb. destruct (Rlt_dec x y); split; congruence || tauto || auto. Qed.
(** ending of the loop at iterate n *)
Lemma newton_loop_spec residual norm distribute solver tol U : forall fuel i log,
  let it := iterate residual distribute solver U in
  let nrm k := norm (fst (residual (it k))) in
  (i = 0%nat -> nl_converged log = false) -> nl_converged log = false -> nl_solves log = i ->
  let '(V, log') := newton_loop residual norm distribute solver tol fuel i (it i) log in
  V = it (nl_solves log') /\ (i <= nl_solves log' <= i + fuel)%nat /\
  (nl_converged log' = true -> (0 < nl_solves log' < i + fuel)%nat /\ nrm (nl_solves log') < 1/1000 * tol) /\
  (nl_converged log' = false -> nl_solves log' = (i + fuel)%nat) /\
  (forall k, (i <= k < nl_solves log')%nat -> (0 < k)%nat -> ~ nrm k < 1/1000 * tol).
Proof.
  induction fuel as [|fuel IH]; intros i log; cbv zeta; intros H0 Hc Hn.
  - cbn. rewrite Hn. split; [reflexivity|]. split; [lia|]. split; [congruence|]. split; [lia|]. intros; lia.
  - cbn [newton_loop]. destruct (residual (iterate residual distribute solver U i)) as [rhs st] eqn:Er.
    destruct (negb (Nat.eqb i 0) && Rltb (norm rhs) (1/1000 * tol)) eqn:Eb.
    + apply andb_prop in Eb. destruct Eb as [E1 E2]. apply Rltb_spec in E2. destruct (Nat.eqb_spec i 0); [discriminate|].
      cbn [nl_solves nl_converged]. rewrite Hn. split; [reflexivity|]. split; [lia|]. split; [|split; [discriminate|intros; lia]]. intros _. rewrite Er. cbn [fst]. split; [lia|exact E2].
    + assert (Es : b_sub (iterate residual distribute solver U i) (distribute (solver i st rhs)) = iterate residual distribute solver U (S i)) by (cbn [iterate]; rewrite Er; reflexivity).
      rewrite Es.
      match goal with |- context [newton_loop _ _ _ _ _ fuel (S i) _ ?L] => specialize (IH (S i) L) end. cbv zeta in IH.
      cbn [nl_solves nl_converged] in IH. rewrite Hn in *. specialize (IH ltac:(discriminate) Hc eq_refl).
      destruct (newton_loop residual norm distribute solver tol fuel (S i) _ _) as [V log'] eqn:El. destruct IH as (I1 & I2 & I3 & I4 & I5).
      split; [exact I1|]. split; [lia|]. split; [intros C; specialize (I3 C); destruct I3; split; [lia|assumption]|]. split; [intros C; specialize (I4 C); lia|].
      intros k Hk Hpos. destruct (Nat.eq_dec k i) as [->|]; [|apply I5; lia]. rewrite Er. cbn [fst]. apply andb_false_iff in Eb. destruct Eb as [Eb|Eb].
      * destruct (Nat.eqb_spec i 0); [lia|discriminate].
      * intro L. apply Rltb_spec in L. congruence.
Qed.
Theorem C66_newton_loop : forall residual norm distribute solver tol max_it U,
  exists V log, advance_cahn_hilliard residual norm distribute solver true tol max_it U = Some (V, log) /\
  let it := iterate residual distribute solver U in
  let nrm k := norm (fst (residual (it k))) in
  V = it (nl_solves log) /\ (nl_solves log <= max_it)%nat /\ ((0 < max_it)%nat -> (0 < nl_solves log)%nat) /\
  (nl_converged log = true -> nrm (nl_solves log) < 1/1000 * tol) /\
  (nl_converged log = false -> nl_solves log = max_it) /\
  (forall k, (0 < k < nl_solves log)%nat -> ~ nrm k < 1/1000 * tol).
Proof.
  intros residual norm distribute solver tol max_it U. unfold advance_cahn_hilliard.
  pose proof (newton_loop_spec residual norm distribute solver tol U max_it 0 (MkNL [] 0 false)) as L. cbv zeta in L. specialize (L (fun _ => eq_refl) eq_refl eq_refl). cbn [iterate] in L.
  destruct (newton_loop residual norm distribute solver tol max_it 0 U (MkNL [] 0 false)) as [V log]. exists V, log. split; [reflexivity|]. cbv zeta.
  destruct L as (L1 & L2 & L3 & L4 & L5). split; [exact L1|]. split; [lia|]. split; [|split; [intros C; apply (proj2 (L3 C))|split; [exact L4|intros k Hk; apply L5; lia]]].
  intros Hm. destruct (nl_converged log) eqn:E; [specialize (L3 eq_refl); lia|specialize (L4 eq_refl); lia].
Qed.
(** the documented alternative is not available *)
Theorem C66_no_other_scheme : forall residual norm distribute solver tol max_it U, advance_cahn_hilliard residual norm distribute solver false tol max_it U = None.
Proof. reflexivity. Qed.
(** Violated: failure to converge is not reported. For every tolerance and iteration limit there is a problem where the call
    returns normally although the residual of the result is as large as one likes *)
Theorem C66_violation_silent_failure : forall tol max_it bound, exists residual norm distribute solver U V log,
  advance_cahn_hilliard residual norm distribute solver true tol max_it U = Some (V, log) /\ norm (fst (residual V)) > bound.
Proof.
  intros tol max_it bound. set (big := Rmax (bound + 1) (Rabs tol)).
  exists (fun U => (U, MkSt (fun _ _ => 0) (fun _ => 0) (fun _ => 0))), (fun _ => big), (fun U => U), (fun _ _ _ => MkB2 (fun _ => 0) (fun _ => 0)), (MkB2 (fun _ => 0) (fun _ => 0)).
  match goal with |- exists V log, advance_cahn_hilliard ?r ?n ?d ?s _ _ _ ?U = _ /\ _ => destruct (C66_newton_loop r n d s tol max_it U) as (V & log & E & _) end.
  exists V, log. split; [exact E|]. cbn. unfold big. pose proof (Rmax_l (bound + 1) (Rabs tol)). lra.
Qed.
(** Newton loop and balance together: with an exact last linear solve the result is balanced, however few iterations are allowed *)
Theorem C65_time_step : forall s par w pts faces c_old c_old_old norm solver tol max_it U,
  partition_of_unity s (lpoints pts) -> unconstrained s -> w_new w <> 0 -> (0 < max_it)%nat ->
  let res := ch_residual s par w pts faces c_old c_old_old in
  (forall k V, V = iterate res (b_distribute s) solver U k -> solves_newton s par w pts faces c_old c_old_old V (solver k (snd (res V)) (fst (res V)))) ->
  exists V log, advance_cahn_hilliard res norm (b_distribute s) solver true tol max_it U = Some (V, log) /\
  w_new w * integral s (lpoints pts) (b_c V) + w_old w * integral s (lpoints pts) c_old
  + (if w_use_old_old w then w_old_old w * integral s (lpoints pts) c_old_old else 0) + convected s pts (b_c V) = 0.
Proof.
  intros s par w pts faces co coo norm solver tol max_it U Hp Hu Hw Hm res Hs.
  destruct (C66_newton_loop res norm (b_distribute s) solver tol max_it U) as (V & log & E & HV). cbv zeta in HV. destruct HV as (HV & _ & H1 & _).
  exists V, log. split; [exact E|]. specialize (H1 Hm). destruct (nl_solves log) as [|k]; [lia|]. cbn [iterate] in HV. rewrite HV.
  apply (C65_balance s par w pts faces co coo _ _ Hp Hu Hw). apply (Hs k). reflexivity.
Qed.
Print Assumptions C66_newton_loop.
Print Assumptions C66_violation_silent_failure.
Print Assumptions C65_time_step.

(** ** C67: the fluid on the fluid type boundaries *)
(** the solver never changes the phase field there: whatever was registered, the value is the one before the step *)
Theorem C67_boundary_value_frozen : forall s residual solver U k i, l_con s i = true ->
  b_c (iterate residual (b_distribute s) solver U k) i = b_c U i /\ b_w (iterate residual (b_distribute s) solver U k) i = b_w U i.
Proof.
  intros s residual solver U k i Hi. induction k as [|k IH]; [split; reflexivity|]. cbn [iterate b_sub b_c b_w b_distribute]. destruct IH as [I1 I2]. rewrite I1, I2.
  unfold ldistribute, lmask. rewrite Hi. split; ring.
Qed.
(** the density the flow solver uses: correct away from these boundaries *)
Definition true_density (s : lspace) (density density_diff : R) (p : lpoint) (c : lvec) : R :=
  density + density_diff * Rmin 1 (Rmax 0 (5/10 * (lvalue s p c + 1))).
Theorem C67_density_away_from_boundary : forall s density density_diff p c,
  (forall i, (i < l_n s)%nat -> l_con s i = true -> l_shape p i = 0) -> pf_density s density density_diff p c = true_density s density density_diff p c.
Proof.
  intros s rho diff p c H. unfold pf_density, true_density. replace (lvalue s p (lmask s c)) with (lvalue s p c); [reflexivity|]. unfold lvalue. apply sumn_ext. intros i Hi.
  unfold lmask. destruct (l_con s i) eqn:E; [rewrite (H i Hi E); ring|reflexivity].
Qed.
(** Violated next to them: with only fluid 2 present (c = 1 everywhere) the density at a point whose constrained shape
    functions sum to a > 0 is too small by a/2 of the density difference, and the mean of both fluids on the boundary *)
Theorem C67_violation_density_at_boundary : forall s density density_diff p,
  sumn (l_n s) (l_shape p) = 1 ->
  let a := sumn (l_n s) (fun i => if l_con s i then l_shape p i else 0) in
  0 <= a <= 1 ->
  pf_density s density density_diff p (fun _ => 1) = density + density_diff * (1 - a / 2) /\
  true_density s density density_diff p (fun _ => 1) = density + density_diff.
Proof.
  intros s rho diff p Hp a Ha.
  assert (E : lvalue s p (lmask s (fun _ => 1)) = 1 - a).
  { unfold lvalue, a. transitivity (sumn (l_n s) (l_shape p) - sumn (l_n s) (fun i => if l_con s i then l_shape p i else 0)); [|rewrite Hp; reflexivity]. rewrite <- sumn_minus. apply sumn_ext. intros i _. unfold lmask. destruct (l_con s i); ring. }
  assert (E1 : lvalue s p (fun _ => 1) = 1) by (unfold lvalue; transitivity (sumn (l_n s) (l_shape p)); [apply sumn_ext; intros; ring|exact Hp]).
  unfold pf_density, true_density. rewrite E, E1. split.
  - rewrite (Rmax_right 0) by lra. rewrite Rmin_right by lra. field.
  - rewrite (Rmax_right 0) by lra. rewrite Rmin_left by lra. ring.
Qed.
Example C67_nonvacuous : let s := ex_space (fun i => Nat.eqb i 0) in
  pf_density s 1 1 (ex_point 0) (fun _ => 1) = 3/2 /\ true_density s 1 1 (ex_point 0) (fun _ => 1) = 2.
Proof.
  cbv zeta. destruct (C67_violation_density_at_boundary (ex_space (fun i => Nat.eqb i 0)) 1 1 (ex_point 0)) as [A B]; [cbn; lra|cbn; lra|].
  rewrite A, B. cbn. lra.
Qed.
Print Assumptions C67_boundary_value_frozen.
Print Assumptions C67_density_away_from_boundary.
Print Assumptions C67_violation_density_at_boundary.

(** ** The residual is the documented weak form (part of C47), and the operators of the preconditioner (part of C48) *)
(** test functions vanish at constrained unknowns *)
Definition test_function (s : lspace) (y : lvec) : Prop := forall i, l_con s i = true -> y i = 0.
Lemma ctest_against s pts val flux y :
  sumn (l_n s) (fun i => y i * ctest s pts val flux i)
  = suml pts (fun p => l_JxW (c_pt p) * (val p * lvalue s (c_pt p) y + ldot s (flux p) (lgradient s (c_pt p) y))).
Proof.
  unfold ctest. rewrite (sumn_ext (l_n s) _ (fun i => suml pts (fun p => y i * (l_JxW (c_pt p) * (val p * l_shape (c_pt p) i + ldot s (flux p) (l_grad (c_pt p) i)))))) by (intros; symmetry; apply suml_scal).
  rewrite <- suml_sumn. apply suml_ext. intros p _. unfold lvalue, lgradient, ldot.
  rewrite (sumn_ext (l_n s) _ (fun i => l_JxW (c_pt p) * (val p * (y i * l_shape (c_pt p) i) + sumn (l_dim s) (fun d => flux p d * (y i * l_grad (c_pt p) i d))))).
  2: { intros i _. rewrite (sumn_ext (l_dim s) (fun d => flux p d * (y i * l_grad (c_pt p) i d)) (fun d => y i * (flux p d * l_grad (c_pt p) i d))) by (intros; ring). rewrite sumn_scal. ring. }
  rewrite sumn_scal, sumn_plus, sumn_scal. do 2 f_equal. rewrite sumn_swap. apply sumn_ext. intros d _. rewrite sumn_scal. reflexivity.
Qed.
Lemma faces_against s (faces : list cface) ev y :
  sumn (l_n s) (fun i => y i * suml faces (fun f => cf_matrix f i * ev f)) = suml faces (fun f => ev f * sumn (l_n s) (fun i => y i * cf_matrix f i)).
Proof.
  rewrite (sumn_ext (l_n s) _ (fun i => suml faces (fun f => ev f * (y i * cf_matrix f i)))).
  2: { intros i _. rewrite <- suml_scal. apply suml_ext. intros. ring. }
  rewrite <- suml_sumn. apply suml_ext. intros f _. rewrite sumn_scal. reflexivity.
Qed.
Theorem C47_weak_form : forall s par w pts faces c_old c_old_old U y, test_function s y ->
  let r := fst (ch_residual s par w pts faces c_old c_old_old U) in
  let val p x := lvalue s (c_pt p) x in let grad p x := lgradient s (c_pt p) x in
  let c := b_c U in let mu := b_w U in
  sumn (l_n s) (fun i => y i * b_c r i) = suml pts (fun p => l_JxW (c_pt p) * (
     (val p c + (w_old w * val p c_old + (if w_use_old_old w then w_old_old w * val p c_old_old else 0) + ldot s (grad p c) (c_vel p)) / w_new w) * val p y
     + ch_length par * ch_length par / w_new w * ldot s (grad p mu) (grad p y))) /\
  sumn (l_n s) (fun i => y i * b_w r i) = suml pts (fun p => l_JxW (c_pt p) * (
     (val p mu - 3/2 * ch_sigma par / ch_eps par * (val p c * val p c * val p c - val p c)) * val p y - 3/4 * ch_sigma par * ch_eps par * ldot s (grad p c) (grad p y)))
   + suml faces (fun f => let v := sumn (l_n s) (fun i => if l_con s i then 0 else c i * cf_matrix f i) in
       ch_contact par * ch_sigma par * (3/4) * (v * v - 1) * cf_JxW f * sumn (l_n s) (fun i => y i * cf_matrix f i)).
Proof.
  intros s par w pts faces co coo U y Hy. cbv zeta. cbn [ch_residual fst b_c b_w]. split.
  - rewrite (sumn_ext (l_n s) _ (fun i => y i * ctest s pts (res0_val s w U co coo) (res0_flux s par w U) i)).
    2: { intros i _. destruct (l_con s i) eqn:E; [rewrite (Hy i E); ring|reflexivity]. }
    rewrite ctest_against. apply suml_ext. intros p _. f_equal. unfold res0_flux. rewrite ldot_scal. unfold res0_val, factor_mobility, inv_time_weight, Rdiv. destruct (w_use_old_old w); ring.
  - rewrite (sumn_ext (l_n s) _ (fun i => y i * ctest s pts (res1_val s par U) (res1_flux s par U) i + y i * contact_test s par faces (contact_res s par U) i)).
    2: { intros i _. destruct (l_con s i) eqn:E; [rewrite (Hy i E); ring|ring]. }
    rewrite sumn_plus, ctest_against. f_equal.
    + apply suml_ext. intros p _. f_equal. unfold res1_flux. rewrite ldot_scal. unfold res1_val, factor_2, factor_4. cbv zeta. replace (15/10 * ch_sigma par / ch_eps par) with (3/2 * ch_sigma par / ch_eps par) by (unfold Rdiv; f_equal; field). replace (75/100) with (3/4) by field. ring.
    + unfold contact_test. destruct (Reqb (ch_contact par) 0) eqn:E.
      * apply Reqb_spec in E. rewrite E. rewrite (sumn_ext (l_n s) _ (fun _ => 0)) by (intros; ring). rewrite sumn_0. symmetry. apply suml_zero. intros; ring.
      * rewrite faces_against. apply suml_ext. intros f _. f_equal. unfold contact_res, face_value, lmask. cbv zeta.
        rewrite (sumn_ext (l_n s) (fun i => (if l_con s i then 0 else b_c U i) * cf_matrix f i) (fun i => if l_con s i then 0 else b_c U i * cf_matrix f i)) by (intros i _; destruct (l_con s i); ring). field.
Qed.
Print Assumptions C47_weak_form.

(** C48: the operators behind the block preconditioner are the mass form and mass plus coefficient times Laplacian, and the coefficient is the
    geometric mean of the two second order coefficients of the weak form, so that (M + coefficient K)^2 has the K^2 term of the Schur complement *)
Theorem C48_operators : forall s pts coefficient diag src y, test_function s y ->
  let x i := if l_con s i then 0 else src i in
  sumn (l_n s) (fun i => y i * ch_mass_vmult s pts src i) = suml pts (fun p => l_JxW p * (lvalue s p x * lvalue s p y)) /\
  sumn (l_n s) (fun i => y i * ch_precond_vmult s pts coefficient diag src i)
    = suml pts (fun p => l_JxW p * (lvalue s p x * lvalue s p y + coefficient * ldot s (lgradient s p x) (lgradient s p y))) /\
  (forall i, l_con s i = true -> ch_mass_vmult s pts src i = src i /\ ch_precond_vmult s pts coefficient diag src i = diag i * src i).
Proof.
  intros s pts k diag src y Hy x.
  assert (MX : forall i, lmask s src i = x i) by (intros i; reflexivity). clearbody x.
  split; [|split].
  - rewrite (sumn_ext (l_n s) _ (fun i => suml pts (fun p => l_JxW p * lvalue s p x * (y i * l_shape p i)))).
    + rewrite <- suml_sumn. apply suml_ext. intros p _. rewrite sumn_scal. unfold lvalue. ring.
    + intros i _. unfold ch_mass_vmult. destruct (l_con s i) eqn:E.
      * rewrite (Hy i E), Rmult_0_l. symmetry. apply suml_zero. intros; ring.
      * unfold ltest. rewrite <- suml_scal. apply suml_ext. intros p _. replace (lvalue s p (lmask s src)) with (lvalue s p x) by (apply lvalue_ext; intros; symmetry; apply MX).
        unfold ldot. rewrite (sumn_ext (l_dim s) _ (fun _ => 0)) by (intros; ring). rewrite sumn_0. ring.
  - rewrite (sumn_ext (l_n s) _ (fun i => suml pts (fun p => l_JxW p * (lvalue s p x * (y i * l_shape p i) + k * (y i * ldot s (lgradient s p x) (l_grad p i)))))).
    + rewrite <- suml_sumn. apply suml_ext. intros p _. rewrite sumn_scal, sumn_plus, !sumn_scal. unfold lvalue at 2. f_equal. f_equal. f_equal.
      unfold ldot. rewrite (sumn_ext (l_n s) _ (fun i => sumn (l_dim s) (fun d => lgradient s p x d * (y i * l_grad p i d)))).
      2: { intros i _. rewrite <- sumn_scal. apply sumn_ext. intros; ring. }
      rewrite sumn_swap. apply sumn_ext. intros d _. rewrite sumn_scal. reflexivity.
    + intros i _. unfold ch_precond_vmult. destruct (l_con s i) eqn:E.
      * rewrite (Hy i E), Rmult_0_l. symmetry. apply suml_zero. intros; ring.
      * rewrite <- suml_scal. apply suml_ext. intros p _.
        rewrite (sumn_ext (l_n s) _ (fun j => l_JxW p * (l_shape p i * (x j * l_shape p j) + k * sumn (l_dim s) (fun d => l_grad p i d * (x j * l_grad p j d))))).
        2: { intros j _. rewrite MX. unfold ldot. rewrite (sumn_ext (l_dim s) (fun d => l_grad p i d * (x j * l_grad p j d)) (fun d => x j * (l_grad p i d * l_grad p j d))) by (intros; ring). rewrite sumn_scal. ring. }
        rewrite sumn_scal, sumn_plus, !sumn_scal, sumn_swap. unfold lvalue, ldot, lgradient.
        rewrite (sumn_ext (l_dim s) (fun j => sumn (l_n s) (fun i0 => l_grad p i j * (x i0 * l_grad p i0 j))) (fun d => sumn (l_n s) (fun j => x j * l_grad p j d) * l_grad p i d)) by (intros; rewrite sumn_scal; ring). ring.
  - intros i E. unfold ch_mass_vmult, ch_precond_vmult. rewrite E. split; reflexivity.
Qed.
Theorem C48_coefficient : forall par w, 0 <= ch_sigma par -> 0 <= ch_eps par -> 0 < w_new w ->
  let k := ch_coefficient par w in 0 <= k /\ k * k = (3/4 * ch_sigma par * ch_eps par) * (ch_length par * ch_length par / w_new w).
Proof.
  intros par w H1 H2 H3 k. unfold k, ch_coefficient. split; [apply sqrt_pos|]. rewrite sqrt_sqrt; [field; lra|].
  apply Rmult_le_pos; [|left; apply Rinv_0_lt_compat; exact H3]. replace (75/100 * ch_sigma par * ch_eps par * ch_length par * ch_length par) with (75/100 * (ch_sigma par * ch_eps par) * (ch_length par * ch_length par)) by ring.
  apply Rmult_le_pos; [|apply Rle_0_sqr]. apply Rmult_le_pos; [lra|]. apply Rmult_le_pos; assumption.
Qed.
Print Assumptions C48_operators.
Print Assumptions C48_coefficient.
