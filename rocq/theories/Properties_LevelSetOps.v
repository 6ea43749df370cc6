(** * Level set operators: C42, C43, C44, C45 *)
From Coq Require Import Reals List Bool Lra Lia.
From Verif Require Import SumR Model_Bubble Properties_Bubble Model_LevelSetOps.
Import ListNotations.
Open Scope R_scope.

(** ** finite element algebra *)
Lemma lvalue_add s p U V : lvalue s p (ladd U V) = lvalue s p U + lvalue s p V.
Proof. unfold lvalue, ladd. rewrite <- sumn_plus. apply sumn_ext; intros; ring. Qed.
Lemma lgradient_add s p U V d : lgradient s p (ladd U V) d = lgradient s p U d + lgradient s p V d.
Proof. unfold lgradient, ladd. rewrite <- sumn_plus. apply sumn_ext; intros; ring. Qed.
Lemma lvalue_ext s p U V : (forall i, (i < l_n s)%nat -> U i = V i) -> lvalue s p U = lvalue s p V.
Proof. intros H. apply sumn_ext. intros. rewrite H by assumption. reflexivity. Qed.
Lemma lgradient_ext s p U V d : (forall i, (i < l_n s)%nat -> U i = V i) -> lgradient s p U d = lgradient s p V d.
Proof. intros H. apply sumn_ext. intros. rewrite H by assumption. reflexivity. Qed.
Lemma ldot_comm s a b : ldot s a b = ldot s b a.
Proof. apply sumn_ext; intros; ring. Qed.
Lemma ldot_scal s k a b : ldot s (fun d => k * a d) b = k * ldot s a b.
Proof. unfold ldot. rewrite <- sumn_scal. apply sumn_ext; intros; ring. Qed.
Lemma ldot_ext s a a' b b' : (forall d, (d < l_dim s)%nat -> a d = a' d) -> (forall d, (d < l_dim s)%nat -> b d = b' d) -> ldot s a b = ldot s a' b'.
Proof. intros H H'. apply sumn_ext. intros. rewrite H, H' by assumption. reflexivity. Qed.
Lemma ldot_add s a b c : ldot s (fun d => a d + b d) c = ldot s a c + ldot s b c.
Proof. unfold ldot. rewrite <- sumn_plus. apply sumn_ext; intros; ring. Qed.
Lemma ldot_nonneg s a : 0 <= ldot s a a.
Proof. apply sumn_nonneg. intros. nra. Qed.

Definition inner (n : nat) (u v : lvec) : R := sumn n (fun i => u i * v i).
(** testing with a coefficient vector *)
Lemma test_with s pts val flux V :
  sumn (l_n s) (fun i => V i * ltest s pts val flux i) =
  suml pts (fun p => l_JxW p * (val p * lvalue s p V + ldot s (flux p) (lgradient s p V))).
Proof.
  unfold ltest. rewrite (sumn_ext _ _ (fun i => suml pts (fun p => V i * (l_JxW p * (val p * l_shape p i + ldot s (flux p) (l_grad p i)))))).
  2: { intros i _. rewrite suml_scal. reflexivity. }
  rewrite <- suml_sumn. apply suml_ext. intros p _. unfold lvalue, lgradient, ldot.
  rewrite (sumn_ext (l_dim s) (fun d => flux p d * sumn (l_n s) (fun j => V j * l_grad p j d)) (fun d => sumn (l_n s) (fun j => flux p d * (V j * l_grad p j d)))).
  2: { intros d _. rewrite sumn_scal. reflexivity. }
  rewrite sumn_swap. rewrite <- (sumn_scal (l_n s) (val p)). rewrite <- sumn_plus. rewrite <- sumn_scal. apply sumn_ext. intros i _.
  rewrite (sumn_ext (l_dim s) (fun d => flux p d * (V i * l_grad p i d)) (fun d => V i * (flux p d * l_grad p i d))) by (intros; ring). rewrite sumn_scal. ring.
Qed.
Lemma inner_split s dst src V :
  inner (l_n s) V (set_constrained s (fun i => if l_con s i then 0 else dst i) src) =
  sumn (l_n s) (fun i => if l_con s i then l_diag s i * (V i * src i) else 0) + sumn (l_n s) (fun i => lmask s V i * dst i).
Proof.
  unfold inner, set_constrained, lmask. rewrite <- sumn_plus. apply sumn_ext. intros i _. destruct (l_con s i); ring.
Qed.
Lemma inner_operator s pts val flux src V :
  inner (l_n s) V (set_constrained s (lintegrate s pts val flux) src) =
  sumn (l_n s) (fun i => if l_con s i then l_diag s i * (V i * src i) else 0) +
  suml pts (fun p => l_JxW p * (val p * lvalue s p (lmask s V) + ldot s (flux p) (lgradient s p (lmask s V)))).
Proof. unfold lintegrate. rewrite inner_split, test_with. reflexivity. Qed.

(** ** C43 *)
Definition symmetric_operator (n : nat) (A : lvec -> lvec) : Prop := forall u v, inner n u (A v) = inner n v (A u).
Definition positive_operator (n : nat) (A : lvec -> lvec) : Prop := forall u, 0 <= inner n u (A u).
Definition definite_operator (n : nat) (A : lvec -> lvec) : Prop := forall u, inner n u (A u) <= 0 -> forall i, (i < n)%nat -> u i = 0.
(** quadrature weights are positive, the stored diagonal is positive on constrained rows, and a finite element function of the
    space that vanishes at all quadrature points is zero *)
Definition good_space (s : lspace) (pts : list lpoint) : Prop :=
  (forall p, In p pts -> 0 < l_JxW p) /\ (forall i, (i < l_n s)%nat -> l_con s i = true -> 0 < l_diag s i) /\
  (forall U, (forall p, In p pts -> lvalue s p U = 0) -> forall i, (i < l_n s)%nat -> U i = 0).
(** generic: mass coefficient m and flux given by a symmetric positive form of gradients *)
Section Generic.
Context (s : lspace) (pts : list lpoint) (m : lpoint -> R) (flux : lpoint -> (nat -> R) -> nat -> R).
Let A (src : lvec) : lvec := set_constrained s (lintegrate s pts (fun p => m p * lvalue s p (lmask s src)) (fun p => flux p (lgradient s p (lmask s src)))) src.
Lemma generic_symmetric : (forall p a b, In p pts -> ldot s (flux p a) b = ldot s (flux p b) a) -> symmetric_operator (l_n s) A.
Proof.
  intros Hs u v. unfold A. rewrite !inner_operator. f_equal.
  - apply sumn_ext. intros i _. destruct (l_con s i); ring.
  - apply suml_ext. intros p Hp. rewrite (Hs p (lgradient s p (lmask s v)) (lgradient s p (lmask s u)) Hp). ring.
Qed.
Lemma generic_positive : (forall p, In p pts -> 0 <= m p) -> (forall p a, In p pts -> 0 <= ldot s (flux p a) a) ->
  (forall p, In p pts -> 0 <= l_JxW p) -> (forall i, (i < l_n s)%nat -> l_con s i = true -> 0 <= l_diag s i) -> positive_operator (l_n s) A.
Proof.
  intros Hm Hf HJ Hd u. unfold A. rewrite inner_operator. apply Rplus_le_le_0_compat.
  - apply sumn_nonneg. intros i Hi. destruct (l_con s i) eqn:E; [|lra]. specialize (Hd i Hi E). apply Rmult_le_pos; [exact Hd|nra].
  - apply suml_nonneg. intros p Hp. specialize (Hm p Hp). specialize (HJ p Hp). specialize (Hf p (lgradient s p (lmask s u)) Hp).
    apply Rmult_le_pos; [exact HJ|]. apply Rplus_le_le_0_compat; [|exact Hf]. rewrite Rmult_assoc. apply Rmult_le_pos; [exact Hm|]. nra.
Qed.
Lemma generic_definite : good_space s pts -> (forall p, In p pts -> 0 < m p) -> (forall p a, In p pts -> 0 <= ldot s (flux p a) a) -> definite_operator (l_n s) A.
Proof.
  intros (HJ & Hd & Hu) Hm Hf u H. unfold A in H. rewrite inner_operator in H.
  set (T1 := fun i => if l_con s i then l_diag s i * (u i * u i) else 0) in H.
  set (T2 := fun p => l_JxW p * (m p * lvalue s p (lmask s u) * lvalue s p (lmask s u) + ldot s (flux p (lgradient s p (lmask s u))) (lgradient s p (lmask s u)))) in H.
  assert (P1 : forall i, (i < l_n s)%nat -> 0 <= T1 i).
  { intros i Hi. unfold T1. destruct (l_con s i) eqn:E; [|lra]. specialize (Hd i Hi E). nra. }
  assert (P2 : forall p, In p pts -> 0 <= T2 p).
  { intros p Hp. unfold T2. specialize (Hm p Hp). specialize (HJ p Hp). specialize (Hf p (lgradient s p (lmask s u)) Hp).
    apply Rmult_le_pos; [lra|]. apply Rplus_le_le_0_compat; [|exact Hf]. rewrite Rmult_assoc. apply Rmult_le_pos; [lra|]. nra. }
  pose proof (sumn_nonneg _ _ P1) as S1. pose proof (suml_nonneg _ _ P2) as S2.
  assert (Z1 : sumn (l_n s) T1 = 0) by lra. assert (Z2 : suml pts T2 = 0) by lra.
  pose proof (sumn_nonneg_zero _ _ P1 Z1) as E1. pose proof (suml_nonneg_zero _ _ P2 Z2) as E2.
  assert (V : forall p, In p pts -> lvalue s p (lmask s u) = 0).
  { intros p Hp. specialize (E2 p Hp). unfold T2 in E2. specialize (Hm p Hp). specialize (HJ p Hp). specialize (Hf p (lgradient s p (lmask s u)) Hp).
    set (x := lvalue s p (lmask s u)) in *. set (y := ldot s _ _) in *. apply Rmult_integral in E2. destruct E2 as [E2|E2]; [lra|].
    assert (0 <= m p * x * x) by (rewrite Rmult_assoc; apply Rmult_le_pos; [lra|nra]). assert (m p * (x * x) = 0) by lra.
    apply Rmult_integral in H1. destruct H1; [lra|]. nra. }
  intros i Hi. destruct (l_con s i) eqn:E.
  - specialize (E1 i Hi). unfold T1 in E1. rewrite E in E1. specialize (Hd i Hi E). apply Rmult_integral in E1. destruct E1; [lra|]. nra.
  - specialize (Hu (lmask s u) V i Hi). unfold lmask in Hu. rewrite E in Hu. exact Hu.
Qed.
End Generic.
(** flux forms *)
Lemma isotropic_symmetric s k a b : ldot s (fun d => a d * k) b = ldot s (fun d => b d * k) a.
Proof. apply sumn_ext; intros; ring. Qed.
Lemma isotropic_nonneg s k a : 0 <= k -> 0 <= ldot s (fun d => a d * k) a.
Proof. intros H. apply sumn_nonneg. intros. nra. Qed.
Lemma directional s k n a b : ldot s (fun d => (k * ldot s n a) * n d) b = k * (ldot s n a * ldot s n b).
Proof. rewrite ldot_scal. ring. Qed.
Definition reinit_form (s : lspace) (eps deg : R) (diffuse_only : bool) (n : lpoint -> nat -> R) (p : lpoint) (a : nat -> R) (d : nat) : R :=
  if diffuse_only then a d * diffusion eps deg p else (diffusion eps deg p * ldot s (n p) a) * n p d.
Lemma diffusion_nonneg eps deg p : 0 <= eps -> 0 <= diffusion eps deg p.
Proof. intros. unfold diffusion. eapply Rle_trans; [eassumption|apply Rmax_l]. Qed.
Lemma reinit_form_symmetric s eps deg dif n p a b : ldot s (reinit_form s eps deg dif n p a) b = ldot s (reinit_form s eps deg dif n p b) a.
Proof.
  unfold reinit_form. destruct dif; [apply isotropic_symmetric|]. rewrite !directional. ring.
Qed.
Lemma reinit_form_nonneg s eps deg dif n p a : 0 <= eps -> 0 <= ldot s (reinit_form s eps deg dif n p a) a.
Proof.
  intros H. pose proof (diffusion_nonneg eps deg p H). unfold reinit_form. destruct dif; [apply isotropic_nonneg; assumption|]. rewrite directional.
  apply Rmult_le_pos; [assumption|]. nra.
Qed.
Theorem C43_reinitialization : forall s pts dti eps deg diffuse_only n,
  good_space s pts -> 0 < dti -> 0 <= eps ->
  let A := reinit_vmult s pts dti eps deg diffuse_only n in
  symmetric_operator (l_n s) A /\ positive_operator (l_n s) A /\ definite_operator (l_n s) A.
Proof.
  intros s pts dti eps deg dif n Hg Hd He. cbv zeta.
  change (reinit_vmult s pts dti eps deg dif n) with (fun src => set_constrained s (lintegrate s pts (fun p => (fun _ => dti) p * lvalue s p (lmask s src)) (fun p => reinit_form s eps deg dif n p (lgradient s p (lmask s src)))) src).
  split; [|split].
  - apply generic_symmetric. intros. apply reinit_form_symmetric.
  - destruct Hg as (HJ & Hdi & _). apply generic_positive; intros; try lra; [apply reinit_form_nonneg; exact He|apply Rlt_le, HJ; assumption|apply Rlt_le, Hdi; assumption].
  - apply generic_definite; intros; [exact Hg|exact Hd|apply reinit_form_nonneg; exact He].
Qed.
(** the pseudo time step is positive for every mesh and step size *)
Theorem C43_pseudo_time_step : forall dim h sub dt, (0 < dim)%nat -> 0 < h -> 0 < sub -> 0 < dtau_inv dim h sub dt.
Proof.
  intros dim h sub dt Hdim Hh Hs. unfold dtau_inv. eapply Rlt_le_trans; [|apply Rmax_l]. assert (0 < INR dim) by (apply lt_0_INR; lia).
  apply Rdiv_lt_0_compat; [lra|]. apply Rdiv_lt_0_compat; [|lra]. apply Rmult_lt_0_compat; [|lra]. apply Rdiv_lt_0_compat; nra.
Qed.
(** its value: the pseudo time step is the smaller of the mesh bound h / (0.95 dim^2 subdivisions) and five physical steps *)
Theorem C43_pseudo_time_step_value : forall dim h sub dt, (0 < dim)%nat -> 0 < h -> 0 < sub -> 0 < dt ->
  1 / dtau_inv dim h sub dt = Rmin (h / (95/100 * (INR dim * INR dim) * sub)) (5 * dt).
Proof.
  intros dim h sub dt Hdim Hh Hs Hdt. assert (0 < INR dim) by (apply lt_0_INR; lia).
  assert (E : 95/100 / (1 / (INR dim * INR dim) * h / sub) = 1 / (h / (95/100 * (INR dim * INR dim) * sub))) by (field; repeat split; lra).
  unfold dtau_inv. rewrite E. set (a := h / (95/100 * (INR dim * INR dim) * sub)).
  assert (A : 0 < a) by (apply Rdiv_lt_0_compat; [lra|]; apply Rmult_lt_0_compat; [nra|lra]). set (b := 5 * dt). assert (B : 0 < b) by (unfold b; lra). clearbody a b.
  unfold Rmin. destruct (Rle_dec a b) as [L|L].
  - rewrite Rmax_left; [field; lra|]. unfold Rdiv. rewrite !Rmult_1_l. apply Rinv_le_contravar; lra.
  - rewrite Rmax_right; [field; lra|]. unfold Rdiv. rewrite !Rmult_1_l. apply Rinv_le_contravar; lra.
Qed.
Theorem C43_normal : forall s pts scale mind deg,
  good_space s pts -> 0 <= scale ->
  let A := normal_vmult s pts scale mind deg in
  symmetric_operator (l_n s) A /\ positive_operator (l_n s) A /\ definite_operator (l_n s) A.
Proof.
  intros s pts scale mind deg Hg Hsc. cbv zeta.
  assert (D : forall p, 0 <= normal_damping scale mind deg p) by (intros p; unfold normal_damping; apply Rmult_le_pos; [exact Hsc|nra]).
  assert (E : normal_vmult s pts scale mind deg = (fun src => set_constrained s (lintegrate s pts (fun p => (fun _ => 1) p * lvalue s p (lmask s src)) (fun p => (fun a d => a d * normal_damping scale mind deg p) (lgradient s p (lmask s src)))) src)).
  { apply FunctionalExtensionality.functional_extensionality; intros src. apply FunctionalExtensionality.functional_extensionality; intros i.
    unfold normal_vmult, set_constrained, lintegrate. destruct (l_con s i); [reflexivity|]. unfold ltest. apply suml_ext. intros p _. ring. }
  rewrite E. split; [|split].
  - apply (generic_symmetric s pts (fun _ => 1) (fun p a d => a d * normal_damping scale mind deg p)). intros. apply isotropic_symmetric.
  - destruct Hg as (HJ & Hdi & _). apply (generic_positive s pts (fun _ => 1) (fun p a d => a d * normal_damping scale mind deg p)); intros; try lra; [apply isotropic_nonneg, D|apply Rlt_le, HJ; assumption|apply Rlt_le, Hdi; assumption].
  - apply (generic_definite s pts (fun _ => 1) (fun p a d => a d * normal_damping scale mind deg p)); intros; [exact Hg|lra|apply isotropic_nonneg, D].
Qed.
(** the quadratic form: L2 norm plus the filter with parameter scale * max(h_min, h / degree)^2 applied to the gradient *)
Theorem C43_normal_energy : forall s pts scale mind deg U, (forall i, (i < l_n s)%nat -> l_con s i = false) ->
  sumn (l_n s) (fun i => U i * normal_vmult s pts scale mind deg U i) =
  suml pts (fun p => l_JxW p * (lvalue s p U * lvalue s p U
    + scale * (Rmax mind (l_diameter p / deg)) ^ 2 * sumn (l_dim s) (fun d => lgradient s p U d * lgradient s p U d))).
Proof.
  intros s pts scale mind deg U Hc.
  assert (M : forall p, lvalue s p (lmask s U) = lvalue s p U) by (intros p; apply sumn_ext; intros j Hj; unfold lmask; rewrite Hc by exact Hj; reflexivity).
  assert (G : forall p d, lgradient s p (lmask s U) d = lgradient s p U d) by (intros p d; apply sumn_ext; intros j Hj; unfold lmask; rewrite Hc by exact Hj; reflexivity).
  rewrite (sumn_ext (l_n s) _ (fun i => suml pts (fun p => U i * (l_JxW p * (lvalue s p U * l_shape p i + sumn (l_dim s) (fun d => lgradient s p U d * normal_damping scale mind deg p * l_grad p i d)))))).
  - rewrite <- suml_sumn. apply suml_ext. intros p _.
    rewrite (sumn_ext (l_n s) _ (fun i => l_JxW p * lvalue s p U * (U i * l_shape p i) + l_JxW p * normal_damping scale mind deg p * sumn (l_dim s) (fun d => lgradient s p U d * (U i * l_grad p i d)))).
    + rewrite sumn_plus, !sumn_scal. fold (lvalue s p U). rewrite sumn_swap.
      rewrite (sumn_ext (l_dim s) (fun i => sumn (l_n s) (fun j => lgradient s p U i * (U j * l_grad p j i))) (fun d => lgradient s p U d * lgradient s p U d)) by (intros d _; rewrite sumn_scal; reflexivity).
      unfold normal_damping. ring.
    + intros i _. replace (U i * (l_JxW p * (lvalue s p U * l_shape p i + sumn (l_dim s) (fun d => lgradient s p U d * normal_damping scale mind deg p * l_grad p i d))))
        with (l_JxW p * lvalue s p U * (U i * l_shape p i) + l_JxW p * (U i * sumn (l_dim s) (fun d => lgradient s p U d * normal_damping scale mind deg p * l_grad p i d))) by ring.
      f_equal. rewrite Rmult_assoc. f_equal. rewrite <- !sumn_scal. apply sumn_ext. intros; ring.
  - intros i Hi. rewrite suml_scal. f_equal. unfold normal_vmult, set_constrained, lintegrate. rewrite (Hc i Hi). unfold ltest, ldot. apply suml_ext. intros p _. rewrite M. f_equal. f_equal. apply sumn_ext. intros d _. rewrite G. reflexivity.
Qed.
Theorem C43_curvature : forall s pts mind deg apply_diffusion,
  good_space s pts ->
  let A := fun src => curvature_vmult s pts mind deg src apply_diffusion in
  symmetric_operator (l_n s) A /\ positive_operator (l_n s) A /\ definite_operator (l_n s) A.
Proof.
  intros s pts mind deg ad Hg. cbv zeta. set (k := fun p => if ad then normal_damping 1 mind deg p else 0).
  assert (D : forall p, 0 <= k p) by (intros p; unfold k, normal_damping; destruct ad; nra).
  assert (E : (fun src => curvature_vmult s pts mind deg src ad) = (fun src => set_constrained s (lintegrate s pts (fun p => (fun _ => 1) p * lvalue s p (lmask s src)) (fun p => (fun a d => a d * k p) (lgradient s p (lmask s src)))) src)).
  { apply FunctionalExtensionality.functional_extensionality; intros src. apply FunctionalExtensionality.functional_extensionality; intros i.
    unfold curvature_vmult, curvature_local, set_constrained, lintegrate. destruct (l_con s i); [reflexivity|]. unfold ltest. apply suml_ext. intros p _. unfold k.
    destruct ad; cbn [Nat.ltb Nat.leb Nat.modulo Nat.divmod snd Nat.sub Nat.eqb]; f_equal; f_equal; try ring. apply ldot_ext; intros; ring. }
  rewrite E. split; [|split].
  - apply (generic_symmetric s pts (fun _ => 1) (fun p a d => a d * k p)). intros. apply isotropic_symmetric.
  - destruct Hg as (HJ & Hdi & _). apply (generic_positive s pts (fun _ => 1) (fun p a d => a d * k p)); intros; try lra; [apply isotropic_nonneg, D|apply Rlt_le, HJ; assumption|apply Rlt_le, Hdi; assumption].
  - apply (generic_definite s pts (fun _ => 1) (fun p a d => a d * k p)); intros; [exact Hg|lra|apply isotropic_nonneg, D].
Qed.
(** consequence for the solver: at most one solution *)
Theorem C43_unique_solution : forall n A, definite_operator n A -> (forall u v i, A (fun j => u j - v j) i = A u i - A v i) ->
  forall u v, (forall i, (i < n)%nat -> A u i = A v i) -> forall i, (i < n)%nat -> u i = v i.
Proof.
  intros n A Hd Hl u v H i Hi. assert (u i - v i = 0); [|lra]. apply (Hd (fun j => u j - v j)); [|exact Hi].
  right. unfold inner. apply sumn_zero. intros j Hj. rewrite Hl, H by exact Hj. ring.
Qed.
Print Assumptions C43_reinitialization.
Print Assumptions C43_pseudo_time_step.
Print Assumptions C43_pseudo_time_step_value.
Print Assumptions C43_normal_energy.
Print Assumptions C43_normal.
Print Assumptions C43_curvature.
Print Assumptions C43_unique_solution.

(** ** C42 *)
(** shape functions sum to one at every point, hence their gradients to zero *)
Definition partition_of_unity (s : lspace) (pts : list lpoint) : Prop :=
  (forall p, In p pts -> sumn (l_n s) (l_shape p) = 1) /\ (forall p d, In p pts -> (d < l_dim s)%nat -> sumn (l_n s) (fun i => l_grad p i d) = 0).
Definition unconstrained (s : lspace) : Prop := forall i, (i < l_n s)%nat -> l_con s i = false.
(** integral of the level set function *)
Definition integral (s : lspace) (pts : list lpoint) (U : lvec) : R := suml pts (fun p => l_JxW p * lvalue s p U).
Lemma total_integrate s pts val flux : partition_of_unity s pts -> unconstrained s ->
  sumn (l_n s) (lintegrate s pts val flux) = suml pts (fun p => l_JxW p * val p).
Proof.
  intros [H1 H2] Hc. rewrite (sumn_ext _ _ (fun i => (fun _ => 1) i * ltest s pts val flux i)).
  2: { intros i Hi. unfold lintegrate. rewrite Hc by exact Hi. ring. }
  rewrite test_with. apply suml_ext. intros p Hp. unfold lvalue. rewrite (sumn_ext _ (fun j => 1 * l_shape p j) (l_shape p)) by (intros; ring). rewrite H1 by exact Hp.
  rewrite (ldot_ext s (flux p) (flux p) _ (fun _ => 0)); [|reflexivity|].
  - unfold ldot. rewrite sumn_zero by (intros; ring). ring.
  - intros d Hd. unfold lgradient. rewrite (sumn_ext _ _ (fun i => l_grad p i d)) by (intros; ring). apply H2; assumption.
Qed.
(** one step: every solution of the linear system has zero integral *)
Theorem C42_step : forall s pts dti eps deg diffuse_only n U increment,
  partition_of_unity s pts -> unconstrained s -> 0 < dti ->
  (forall i, (i < l_n s)%nat -> reinit_vmult s pts dti eps deg diffuse_only n increment i = reinit_rhs s pts eps deg diffuse_only n U i) ->
  integral s pts increment = 0 /\ integral s pts (ladd U (ldistribute s increment)) = integral s pts U.
Proof.
  intros s pts dti eps deg dif n U inc Hp Hc Hd H.
  assert (M : forall p, lvalue s p (lmask s inc) = lvalue s p inc) by (intros p; apply lvalue_ext; intros i Hi; unfold lmask; rewrite Hc by exact Hi; reflexivity).
  assert (Z : integral s pts inc = 0).
  { apply (Rmult_eq_reg_l dti); [|lra]. rewrite Rmult_0_r. transitivity (sumn (l_n s) (reinit_vmult s pts dti eps deg dif n inc)).
    - unfold reinit_vmult. rewrite (sumn_ext _ _ (lintegrate s pts (fun p => dti * lvalue s p (lmask s inc)) (reinit_flux s eps deg dif n (lmask s inc)))).
      2: { intros i Hi. unfold set_constrained. rewrite Hc by exact Hi. reflexivity. }
      rewrite total_integrate by assumption. unfold integral. rewrite <- suml_scal. apply suml_ext. intros p _. rewrite M. ring.
    - rewrite (sumn_ext _ _ (reinit_rhs s pts eps deg dif n U)) by exact H. unfold reinit_rhs. rewrite total_integrate by assumption. apply suml_zero. intros; ring. }
  split; [exact Z|]. unfold integral in *. rewrite <- (Rplus_0_r (suml pts (fun p => l_JxW p * lvalue s p U))). rewrite <- Z at 1. rewrite <- suml_plus.
  apply suml_ext. intros p _. rewrite lvalue_add. change (ldistribute s inc) with (lmask s inc). rewrite M. ring.
Qed.
(** the whole reinitialization: any number of steps of either kind, with any normals and any of the exact solutions *)
Inductive reinit_run (s : lspace) (pts : list lpoint) (dti eps deg : R) : lvec -> lvec -> Prop :=
| run_done U : reinit_run s pts dti eps deg U U
| run_step U inc dif n V :
    (forall i, (i < l_n s)%nat -> reinit_vmult s pts dti eps deg dif n inc i = reinit_rhs s pts eps deg dif n U i) ->
    reinit_run s pts dti eps deg (ladd U (ldistribute s inc)) V -> reinit_run s pts dti eps deg U V.
Theorem C42_reinitialize : forall s pts dti eps deg U V,
  partition_of_unity s pts -> unconstrained s -> 0 < dti -> reinit_run s pts dti eps deg U V -> integral s pts V = integral s pts U.
Proof.
  intros s pts dti eps deg U V Hp Hc Hd R. induction R; [reflexivity|]. rewrite IHR. apply (proj2 (C42_step s pts dti eps deg dif n U inc Hp Hc Hd H)).
Qed.
Print Assumptions C42_step.
Print Assumptions C42_reinitialize.
(** a mesh of one cell in one dimension with two nodes and the trapezoidal rule *)
Definition ex_point (k : nat) : lpoint := MkLP (1/2) (fun i => if Nat.eqb i k then 1 else 0) (fun i _ => if Nat.eqb i 0 then -1 else 1) 1.
Definition ex_points : list lpoint := [ex_point 0; ex_point 1].
Definition ex_space (con : nat -> bool) : lspace := MkLS 1 2 con (fun _ => 1).
Definition ex_vec (a b : R) : lvec := fun i => if Nat.eqb i 0 then a else b.
Lemma Rmax_1_1 : Rmax 1 (1 / 1) = 1.
Proof. rewrite Rmax_left; lra. Qed.
Example C43_nonvacuous : good_space (ex_space (fun i => Nat.eqb i 0)) ex_points.
Proof.
  split; [|split].
  - intros p [<-|[<-|[]]]; cbn; lra.
  - intros i _ _. cbn. lra.
  - intros U H i Hi. pose proof (H (ex_point 0) (or_introl eq_refl)) as H0. pose proof (H (ex_point 1) (or_intror (or_introl eq_refl))) as H1.
    unfold lvalue in H0, H1. cbn in H0, H1, Hi. destruct i as [|[|i]]; [lra|lra|lia].
Qed.
(** a diffusive step of a non-constant profile *)
Example C42_nonvacuous :
  let s := ex_space (fun _ => false) in
  partition_of_unity s ex_points /\ unconstrained s /\
  reinit_run s ex_points 1 1 1 (ex_vec 1 (-1)) (ladd (ex_vec 1 (-1)) (ldistribute s (ex_vec (-4/5) (4/5)))).
Proof.
  cbv zeta. split; [|split].
  - split; intros p; [intros [<-|[<-|[]]]|intros d [<-|[<-|[]]] Hd]; cbn; lra.
  - intros i _. reflexivity.
  - apply run_step with (inc := ex_vec (-4/5) (4/5)) (dif := true) (n := fun _ _ => 1); [|apply run_done].
    intros [|[|i]] Hi; cbn in Hi; try lia; unfold reinit_vmult, reinit_rhs, set_constrained, lintegrate, ltest, ldot, reinit_flux, reinit_rhs_flux, lvalue, lgradient, diffusion, lmask, ex_vec; cbn -[Rmax Rdiv]; rewrite !Rmax_1_1; lra.
Qed.
(** with Dirichlet values on part of the boundary the integral is not conserved *)
Theorem C42_refuted_dirichlet : exists s pts U inc, partition_of_unity s pts /\
  (forall i, (i < l_n s)%nat -> reinit_vmult s pts 1 1 1 true (fun _ _ => 0) inc i = reinit_rhs s pts 1 1 true (fun _ _ => 0) U i) /\
  integral s pts (ladd U (ldistribute s inc)) <> integral s pts U.
Proof.
  exists (ex_space (fun i => Nat.eqb i 0)), ex_points, (ex_vec 1 (-1)), (ex_vec 0 (4/3)). split; [|split].
  - split; intros p; [intros [<-|[<-|[]]]|intros d [<-|[<-|[]]] Hd]; cbn; lra.
  - intros [|[|i]] Hi; cbn in Hi; try lia; unfold reinit_vmult, reinit_rhs, set_constrained, lintegrate, ltest, ldot, reinit_flux, reinit_rhs_flux, lvalue, lgradient, diffusion, lmask, ex_vec; cbn -[Rmax Rdiv]; rewrite ?Rmax_1_1; lra.
  - unfold integral, ex_points, lvalue, ldistribute, lmask, ladd, ex_vec. cbn. lra.
Qed.
Print Assumptions C42_refuted_dirichlet.

(** ** C44 *)
(** weak form of the implicit advection equation tested with shape function i:
    int (w c + w_old c_old + w_oo c_oo + u . grad c) phi_i + nu grad c . grad phi_i  -  int_boundary nu n . grad c phi_i *)
Definition advection_residual (s : lspace) (stab : bool) (w : weights) (pts : list apoint) (faces : list fpoint) (c c_old c_old_old : lvec) (i : nat) : R :=
  suml pts (fun a => let p := a_point a in
    l_JxW p * ((w_new w * lvalue s p c + w_old w * lvalue s p c_old + (if w_use_old_old w then w_old_old w * lvalue s p c_old_old else 0)
                + sumn (l_dim s) (fun d => a_vel a d * lgradient s p c d)) * l_shape p i
               + (if stab then a_visc a * sumn (l_dim s) (fun d => lgradient s p c d * l_grad p i d) else 0)))
  - (if stab then suml faces (fun f => l_JxW (f_point f) * f_visc f * sumn (l_dim s) (fun d => f_normal f d * lgradient s (f_point f) c d) * l_shape (f_point f) i) else 0).
(** its linear part *)
Definition advection_linear (s : lspace) (stab : bool) (w : R) (pts : list apoint) (faces : list fpoint) (c : lvec) (i : nat) : R :=
  advection_residual s stab (MkW w 0 0 false) pts faces c (fun _ => 0) (fun _ => 0) i.
Lemma lvalue_0 s p : lvalue s p (fun _ => 0) = 0.
Proof. apply sumn_zero. intros; ring. Qed.
Lemma residual_add s stab w pts faces c v c_old c_oo i :
  advection_residual s stab w pts faces (ladd c v) c_old c_oo i = advection_residual s stab w pts faces c c_old c_oo i + advection_linear s stab (w_new w) pts faces v i.
Proof.
  unfold advection_linear, advection_residual. cbn [w_new w_old w_old_old w_use_old_old].
  match goal with |- ?a - ?b = (?c - ?d) + (?e - ?f) => enough (a = c + e /\ b = d + f) by lra end. split.
  - rewrite <- suml_plus. apply suml_ext. intros a _. cbv zeta. rewrite lvalue_add, lvalue_0.
    rewrite (sumn_ext _ (fun d => a_vel a d * lgradient s (a_point a) (ladd c v) d) (fun d => a_vel a d * lgradient s (a_point a) c d + a_vel a d * lgradient s (a_point a) v d)) by (intros; rewrite lgradient_add; ring).
    rewrite (sumn_ext _ (fun d => lgradient s (a_point a) (ladd c v) d * l_grad (a_point a) i d) (fun d => lgradient s (a_point a) c d * l_grad (a_point a) i d + lgradient s (a_point a) v d * l_grad (a_point a) i d)) by (intros; rewrite lgradient_add; ring).
    rewrite !sumn_plus. destruct stab; ring.
  - destruct stab; [|ring]. rewrite <- suml_plus. apply suml_ext. intros f _.
    rewrite (sumn_ext _ (fun d => f_normal f d * lgradient s (f_point f) (ladd c v) d) (fun d => f_normal f d * lgradient s (f_point f) c d + f_normal f d * lgradient s (f_point f) v d)) by (intros; rewrite lgradient_add; ring).
    rewrite sumn_plus. ring.
Qed.
Lemma linear_ext s stab w pts faces c c' i : (forall j, (j < l_n s)%nat -> c j = c' j) -> advection_linear s stab w pts faces c i = advection_linear s stab w pts faces c' i.
Proof.
  intros H. unfold advection_linear, advection_residual. f_equal; [|f_equal].
  - apply suml_ext. intros a _. cbv zeta. rewrite (lvalue_ext s (a_point a) c c' H). rewrite (sumn_ext _ _ (fun d => a_vel a d * lgradient s (a_point a) c' d)) by (intros; rewrite (lgradient_ext s _ c c' _ H); ring).
    destruct stab; [|reflexivity]. rewrite (sumn_ext _ (fun d => lgradient s (a_point a) c d * l_grad (a_point a) i d) (fun d => lgradient s (a_point a) c' d * l_grad (a_point a) i d)) by (intros; rewrite (lgradient_ext s _ c c' _ H); ring). reflexivity.
  - destruct stab; [|reflexivity]. apply suml_ext. intros f _. rewrite (sumn_ext _ _ (fun d => f_normal f d * lgradient s (f_point f) c' d)) by (intros; rewrite (lgradient_ext s _ c c' _ H); ring). reflexivity.
Qed.
Lemma face_rewrite s faces U i : face_test s faces U i =
  suml faces (fun f => l_JxW (f_point f) * f_visc f * sumn (l_dim s) (fun d => f_normal f d * lgradient s (f_point f) U d) * l_shape (f_point f) i).
Proof.
  unfold face_test. apply suml_ext. intros f _. rewrite ldot_comm, ldot_scal, ldot_comm. unfold ldot. ring.
Qed.
Lemma vmult_free s stab w pts faces src i : l_con s i = false -> (forall j, (j < l_n s)%nat -> l_con s j = true -> src j = 0) ->
  advance_vmult s stab w pts faces src i = advection_linear s stab w pts faces src i.
Proof.
  intros Hc Hz. assert (M : forall j, (j < l_n s)%nat -> lmask s src j = src j) by (intros j Hj; unfold lmask; destruct (l_con s j) eqn:E; [rewrite Hz by assumption; reflexivity|reflexivity]).
  unfold advance_vmult, set_constrained. rewrite Hc. unfold advection_linear, advection_residual. cbn [w_new w_old w_old_old w_use_old_old]. unfold Rminus. f_equal.
  - unfold adv_test. apply suml_ext. intros a _. cbv zeta. unfold adv_val. rewrite (lvalue_ext s _ _ _ M), lvalue_0.
    rewrite (ldot_ext s _ (lgradient s (a_point a) src) (a_vel a) (a_vel a)) by (intros; try reflexivity; apply lgradient_ext; exact M).
    rewrite ldot_comm. destruct stab.
    + rewrite (ldot_ext s _ (fun d => a_visc a * lgradient s (a_point a) src d) (l_grad (a_point a) i) (l_grad (a_point a) i)) by (intros; try reflexivity; cbv beta; rewrite (lgradient_ext s _ _ _ _ M); reflexivity).
      rewrite ldot_scal. unfold ldot. ring.
    + unfold ldot. ring.
  - destruct stab; [|ring]. rewrite face_rewrite. reflexivity.
Qed.
Lemma rhs_free s stab w pts faces U U_old U_oo i : l_con s i = false ->
  advance_rhs s stab w pts faces U U_old U_oo i = - advection_residual s stab w pts faces U U_old U_oo i.
Proof.
  intros Hc. unfold advance_rhs. rewrite Hc. unfold advection_residual.
  match goal with |- ?a + ?b = - (?c - ?d) => enough (a = - c /\ b = d) by lra end. split.
  - unfold adv_test. rewrite <- suml_opp. apply suml_ext. intros a _. cbv zeta. unfold adv_val, old_value. rewrite (ldot_comm s (lgradient s (a_point a) U)).
    destruct stab; [rewrite ldot_scal|]; unfold ldot; ring.
  - destruct stab; [apply face_rewrite|reflexivity].
Qed.
(** exact solution of the linear system, including the rows of constrained unknowns *)
Definition solves (n : nat) (A : lvec -> lvec) (x b : lvec) : Prop := forall i, (i < n)%nat -> A x i = b i.
Definition dirichlet_diagonal (s : lspace) : Prop := forall i, (i < l_n s)%nat -> l_con s i = true -> l_diag s i <> 0.
Lemma solution_masked s stab w pts faces x b : dirichlet_diagonal s -> solves (l_n s) (advance_vmult s stab w pts faces) x b -> (forall i, (i < l_n s)%nat -> l_con s i = true -> b i = 0) ->
  forall i, (i < l_n s)%nat -> l_con s i = true -> x i = 0.
Proof.
  intros Hd Hs Hb i Hi Hc. specialize (Hs i Hi). rewrite Hb in Hs by assumption. unfold advance_vmult, set_constrained in Hs. rewrite Hc in Hs.
  apply Rmult_integral in Hs. destruct Hs; [|assumption]. exfalso. apply (Hd i Hi Hc). assumption.
Qed.
(** the new level set satisfies the implicit equation in every free row and the boundary values in every constrained row,
    whatever guess was in the solution vector before *)
Theorem C44_implicit_equation : forall s stab w pts faces bc guess c_old c_old_old increment,
  dirichlet_diagonal s ->
  solves (l_n s) (advance_vmult s stab (w_new w) pts faces) increment (advance_rhs s stab w pts faces (impose s bc guess) c_old c_old_old) ->
  let c := advance_result s (impose s bc guess) increment in
  forall i, (i < l_n s)%nat ->
    (l_con s i = false -> advection_residual s stab w pts faces c c_old c_old_old i = 0) /\ (l_con s i = true -> c i = bc i).
Proof.
  intros s stab w pts faces bc guess c_old c_oo inc Hd Hs. cbv zeta. intros i Hi.
  assert (Z : forall j, (j < l_n s)%nat -> l_con s j = true -> inc j = 0).
  { apply (solution_masked s stab (w_new w) pts faces inc _ Hd Hs). intros j _ Hj. unfold advance_rhs. rewrite Hj. reflexivity. }
  assert (M : forall j, (j < l_n s)%nat -> ldistribute s inc j = inc j) by (intros j Hj; unfold ldistribute, lmask; destruct (l_con s j) eqn:E; [rewrite Z by assumption; reflexivity|reflexivity]).
  split; intros Hc.
  - unfold advance_result. rewrite residual_add. rewrite (linear_ext s stab (w_new w) pts faces _ inc i M). rewrite <- (vmult_free s stab (w_new w) pts faces inc i Hc Z).
    rewrite (Hs i Hi). rewrite rhs_free by exact Hc. ring.
  - unfold advance_result, ladd, ldistribute, lmask, impose. rewrite Hc. ring.
Qed.
(** if the system matrix is regular, the result does not depend on the guess *)
Theorem C44_independent_of_guess : forall s stab w pts faces bc guess guess' c_old c_old_old inc inc',
  dirichlet_diagonal s ->
  (forall z, (forall i, (i < l_n s)%nat -> advance_vmult s stab (w_new w) pts faces z i = 0) -> forall i, (i < l_n s)%nat -> z i = 0) ->
  solves (l_n s) (advance_vmult s stab (w_new w) pts faces) inc (advance_rhs s stab w pts faces (impose s bc guess) c_old c_old_old) ->
  solves (l_n s) (advance_vmult s stab (w_new w) pts faces) inc' (advance_rhs s stab w pts faces (impose s bc guess') c_old c_old_old) ->
  forall i, (i < l_n s)%nat -> advance_result s (impose s bc guess) inc i = advance_result s (impose s bc guess') inc' i.
Proof.
  intros s stab w pts faces bc g g' c_old c_oo inc inc' Hd Hreg H H' i Hi.
  set (c := advance_result s (impose s bc g) inc). set (c' := advance_result s (impose s bc g') inc').
  assert (E : ladd c' (fun j => c j - c' j) = c) by (apply FunctionalExtensionality.functional_extensionality; intros j; unfold ladd; ring).
  assert (Q : c i - c' i = 0); [|lra]. apply (Hreg (fun j => c j - c' j)); [|exact Hi]. intros j Hj.
  pose proof (C44_implicit_equation s stab w pts faces bc g c_old c_oo inc Hd H j Hj) as [F1 D1].
  pose proof (C44_implicit_equation s stab w pts faces bc g' c_old c_oo inc' Hd H' j Hj) as [F2 D2]. fold c in F1, D1. fold c' in F2, D2.
  destruct (l_con s j) eqn:Ec.
  - unfold advance_vmult, set_constrained. rewrite Ec, D1, D2 by reflexivity. ring.
  - rewrite vmult_free; [|exact Ec|].
    + specialize (F1 eq_refl). specialize (F2 eq_refl). rewrite <- E in F1. rewrite residual_add, F2 in F1. lra.
    + intros k Hk Hck. pose proof (C44_implicit_equation s stab w pts faces bc g c_old c_oo inc Hd H k Hk) as [_ D3].
      pose proof (C44_implicit_equation s stab w pts faces bc g' c_old c_oo inc' Hd H' k Hk) as [_ D4]. fold c in D3. fold c' in D4. rewrite D3, D4 by exact Hck. ring.
Qed.
(** a constant level set is transported to the same constant by every velocity field: weights sum to zero, boundary values agree *)
Theorem C44_keeps_constants : forall s stab w pts faces bc guess inc k,
  dirichlet_diagonal s ->
  (forall z, (forall i, (i < l_n s)%nat -> advance_vmult s stab (w_new w) pts faces z i = 0) -> forall i, (i < l_n s)%nat -> z i = 0) ->
  (forall a d, In a pts -> (d < l_dim s)%nat -> sumn (l_n s) (fun i => l_grad (a_point a) i d) = 0) ->
  (forall f d, In f faces -> (d < l_dim s)%nat -> sumn (l_n s) (fun i => l_grad (f_point f) i d) = 0) ->
  w_new w + w_old w + (if w_use_old_old w then w_old_old w else 0) = 0 -> (forall i, bc i = k) ->
  solves (l_n s) (advance_vmult s stab (w_new w) pts faces) inc (advance_rhs s stab w pts faces (impose s bc guess) (fun _ => k) (fun _ => k)) ->
  forall i, (i < l_n s)%nat -> advance_result s (impose s bc guess) inc i = k.
Proof.
  intros s stab w pts faces bc g inc k Hd Hreg Hp Hf Hw Hb Hs i Hi.
  assert (Gk : forall p d, sumn (l_n s) (fun i => l_grad p i d) = 0 -> lgradient s p (fun _ => k) d = 0).
  { intros p d H. unfold lgradient. rewrite sumn_scal, H. ring. }
  assert (R0 : forall j, advection_residual s stab w pts faces (fun _ => k) (fun _ => k) (fun _ => k) j = 0).
  { intros j. unfold advection_residual. rewrite suml_zero; [destruct stab; [|ring]; rewrite suml_zero; [ring|]|].
    - intros f Hin. rewrite sumn_zero; [ring|]. intros d Hdd. rewrite Gk by (apply Hf; assumption). ring.
    - intros a Hin. cbv zeta. rewrite (sumn_zero _ (fun d => a_vel a d * lgradient s (a_point a) (fun _ => k) d)) by (intros d Hdd; rewrite Gk by (apply Hp; assumption); ring).
      rewrite (sumn_zero _ (fun d => lgradient s (a_point a) (fun _ => k) d * l_grad (a_point a) j d)) by (intros d Hdd; rewrite Gk by (apply Hp; assumption); ring).
      set (v := lvalue s (a_point a) (fun _ => k)). destruct (w_use_old_old w).
      + replace (w_new w * v + w_old w * v + w_old_old w * v + 0) with ((w_new w + w_old w + w_old_old w) * v) by ring. rewrite Hw. destruct stab; ring.
      + replace (w_new w * v + w_old w * v + 0 + 0) with ((w_new w + w_old w + 0) * v) by ring. rewrite Hw. destruct stab; ring. }
  transitivity (advance_result s (impose s bc (fun _ => k)) (fun _ => 0) i).
  - apply (C44_independent_of_guess s stab w pts faces bc g (fun _ => k) (fun _ => k) (fun _ => k) inc (fun _ => 0) Hd Hreg Hs); [|exact Hi].
    assert (I : impose s bc (fun _ => k) = (fun _ => k)) by (apply FunctionalExtensionality.functional_extensionality; intros j; unfold impose; rewrite Hb; destruct (l_con s j); reflexivity).
    rewrite I. intros j Hj. destruct (l_con s j) eqn:Ec.
    + unfold advance_vmult, set_constrained, advance_rhs. rewrite Ec. ring.
    + rewrite vmult_free, rhs_free, R0 by (try exact Ec; intros; reflexivity). rewrite Ropp_0.
      pose proof (residual_add s stab w pts faces (fun _ => k) (fun _ => 0) (fun _ => k) (fun _ => k) j) as E. rewrite R0 in E.
      assert (I0 : ladd (fun _ => k) (fun _ => 0) = (fun _ => k)) by (apply FunctionalExtensionality.functional_extensionality; intros x; unfold ladd; ring). rewrite I0, R0 in E. lra.
  - unfold advance_result, ladd, ldistribute, lmask, impose. rewrite Hb. destruct (l_con s i); ring.
Qed.
Print Assumptions C44_implicit_equation.
Print Assumptions C44_independent_of_guess.
Print Assumptions C44_keeps_constants.
(** velocity and viscosity on the example mesh; Dirichlet value at node 0 (inflow) *)
Definition ex_apoints : list apoint := map (fun p => MkAP p (fun _ => 1) (1/10)) ex_points.
Example C44_nonvacuous :
  let s := ex_space (fun i => Nat.eqb i 0) in let w := MkW 2 (-2) 0 false in
  dirichlet_diagonal s /\
  (forall z, (forall i, (i < l_n s)%nat -> advance_vmult s false (w_new w) ex_apoints [] z i = 0) -> forall i, (i < l_n s)%nat -> z i = 0) /\
  solves (l_n s) (advance_vmult s false (w_new w) ex_apoints []) (ex_vec 0 (-2/3))
         (advance_rhs s false w ex_apoints [] (impose s (fun _ => -1) (ex_vec 1 1)) (ex_vec (-1) 1) (ex_vec 0 0)) /\
  advance_result s (impose s (fun _ => -1) (ex_vec 1 1)) (ex_vec 0 (-2/3)) 1%nat <> 1.
Proof.
  cbv zeta. split; [|split; [|split]].
  - intros i _ _. cbn. lra.
  - intros z H i Hi. pose proof (H 0%nat ltac:(cbn; lia)) as H0. pose proof (H 1%nat ltac:(cbn; lia)) as H1.
    unfold advance_vmult, set_constrained in H0, H1. cbn in H0. cbn in H1. unfold adv_test, adv_val, lvalue, lgradient, ldot, lmask in H1. cbn in H1. cbn in Hi. destruct i as [|[|i]]; [lra|lra|lia].
  - intros [|[|i]] Hi; cbn in Hi; try lia; unfold advance_vmult, set_constrained, advance_rhs, adv_test, adv_val, old_value, lvalue, lgradient, ldot, lmask, impose, ex_vec; cbn; lra.
  - unfold advance_result, ladd, ldistribute, lmask, impose, ex_vec. cbn. lra.
Qed.

(** *** matrix-based solver *)
(** conservative weak form tested with shape function i *)
Definition conservative_residual (s : lspace) (w : weights) (pts : list apoint) (c c_old c_old_old : lvec) (i : nat) : R :=
  suml pts (fun a => let p := a_point a in
    l_JxW p * (l_shape p i * (w_new w * lvalue s p c + w_old w * lvalue s p c_old + (if w_use_old_old w then w_old_old w * lvalue s p c_old_old else 0))
               - sumn (l_dim s) (fun d => a_vel a d * l_grad p i d) * lvalue s p c)).
Lemma m_row s w tau pts src i :
  suml pts (fun a => sumn (l_n s) (fun j => m_entry s false w tau a i j * src j)) =
  suml pts (fun a => l_JxW (a_point a) * (l_shape (a_point a) i * w_new w - ldot s (a_vel a) (l_grad (a_point a) i)) * lvalue s (a_point a) src).
Proof.
  apply suml_ext. intros a _. unfold lvalue. rewrite <- sumn_scal. apply sumn_ext. intros j _. unfold m_entry. ring.
Qed.
Theorem C44_matrix_equation : forall s w tau pts guess c_old c_old_old increment,
  solves (l_n s) (m_vmult s false w tau pts) increment (m_rhs s false w tau pts guess c_old c_old_old) ->
  forall i, (i < l_n s)%nat -> l_con s i = false ->
    conservative_residual s w pts (advance_result s guess increment) c_old c_old_old i = 0.
Proof.
  intros s w tau pts g c_old c_oo inc Hs i Hi Hc. specialize (Hs i Hi). unfold m_vmult, set_constrained, m_rhs in Hs. rewrite Hc, m_row in Hs.
  transitivity (suml pts (fun a => l_JxW (a_point a) * (l_shape (a_point a) i * w_new w - ldot s (a_vel a) (l_grad (a_point a) i)) * lvalue s (a_point a) (lmask s inc))
                - suml pts (fun a => m_rhs_point s false w tau a g c_old c_oo i)); [|lra].
  rewrite <- suml_minus. apply suml_ext. intros a _. cbv zeta. unfold advance_result. rewrite lvalue_add. unfold ldistribute, m_rhs_point, m_old_value, ldot. destruct (w_use_old_old w); ring.
Qed.
(** constrained unknowns are not moved: the increment vanishes there and the boundary value in the guess survives *)
Theorem C44_matrix_constrained : forall s stab w tau pts guess c_old c_old_old increment,
  dirichlet_diagonal s -> solves (l_n s) (m_vmult s stab w tau pts) increment (m_rhs s stab w tau pts guess c_old c_old_old) ->
  forall i, (i < l_n s)%nat -> l_con s i = true -> increment i = 0 /\ advance_result s guess increment i = guess i.
Proof.
  intros s stab w tau pts g c_old c_oo inc Hd Hs i Hi Hc. specialize (Hs i Hi). unfold m_vmult, set_constrained, m_rhs in Hs. rewrite Hc in Hs.
  specialize (Hd i Hi Hc). apply Rmult_integral in Hs as [Hs|Hs]; [lra|]. split; [exact Hs|]. unfold advance_result, ladd, ldistribute, lmask. rewrite Hc. ring.
Qed.
(** what the stabilized variant solves: the streamline-upwind equation tested with phi + tau u . grad phi holds for the increment, not for
    the new level set *)
Definition supg_residual (s : lspace) (w : weights) (tau : apoint -> R) (pts : list apoint) (c c_old c_old_old : lvec) (i : nat) : R :=
  suml pts (fun a => let p := a_point a in let u_grad f := sumn (l_dim s) (fun d => a_vel a d * f d) in
    let rate := w_new w * lvalue s p c + w_old w * lvalue s p c_old + (if w_use_old_old w then w_old_old w * lvalue s p c_old_old else 0) in
    l_JxW p * (l_shape p i * rate - u_grad (l_grad p i) * lvalue s p c
               + tau a * u_grad (l_grad p i) * (rate + u_grad (lgradient s p c)))).
Theorem C44_matrix_stabilized_equation : forall s w tau pts guess c_old c_old_old increment,
  solves (l_n s) (m_vmult s true w tau pts) increment (m_rhs s true w tau pts guess c_old c_old_old) ->
  forall i, (i < l_n s)%nat -> l_con s i = false -> supg_residual s w tau pts (ldistribute s increment) c_old c_old_old i = 0.
Proof.
  intros s w tau pts g c_old c_oo inc Hs i Hi Hc. specialize (Hs i Hi). unfold m_vmult, set_constrained, m_rhs in Hs. rewrite Hc in Hs.
  transitivity (suml pts (fun a => sumn (l_n s) (fun j => m_entry s true w tau a i j * lmask s inc j))
                - suml pts (fun a => m_rhs_point s true w tau a g c_old c_oo i)); [|lra].
  rewrite <- suml_minus. apply suml_ext. intros a _. cbv zeta. unfold ldistribute. set (U := lmask s inc).
  assert (G : sumn (l_dim s) (fun d => a_vel a d * lgradient s (a_point a) U d) = sumn (l_n s) (fun j => U j * ldot s (a_vel a) (l_grad (a_point a) j))).
  { unfold lgradient, ldot. rewrite (sumn_ext (l_dim s) _ (fun d => sumn (l_n s) (fun j => U j * (a_vel a d * l_grad (a_point a) j d)))).
    - rewrite sumn_swap. apply sumn_ext. intros j _. rewrite <- sumn_scal. reflexivity.
    - intros d _. rewrite <- sumn_scal. apply sumn_ext. intros; ring. }
  rewrite G. unfold m_rhs_point, m_old_value, m_entry. cbv zeta. fold (ldot s (a_vel a) (l_grad (a_point a) i)). set (e := ldot s (a_vel a) (l_grad (a_point a) i)).
  set (J := l_JxW (a_point a)). set (fi := l_shape (a_point a) i).
  assert (K : sumn (l_n s) (fun j => (fi * w_new w * l_shape (a_point a) j - e * l_shape (a_point a) j + e * tau a * (ldot s (a_vel a) (l_grad (a_point a) j) + l_shape (a_point a) j * w_new w)) * J * U j)
    = J * (fi * w_new w - e + e * tau a * w_new w) * lvalue s (a_point a) U + J * e * tau a * sumn (l_n s) (fun j => U j * ldot s (a_vel a) (l_grad (a_point a) j))).
  { unfold lvalue. rewrite <- !sumn_scal, <- sumn_plus. apply sumn_ext. intros. ring. }
  rewrite K. destruct (w_use_old_old w); ring.
Qed.
(** the conservative form keeps the integral when the weights sum to zero, also for velocities with divergence *)
Theorem C44_matrix_conserves : forall s w tau pts guess c_old c_old_old increment,
  partition_of_unity s (map a_point pts) -> unconstrained s ->
  solves (l_n s) (m_vmult s false w tau pts) increment (m_rhs s false w tau pts guess c_old c_old_old) ->
  w_new w * integral s (map a_point pts) (advance_result s guess increment) + w_old w * integral s (map a_point pts) c_old
  + (if w_use_old_old w then w_old_old w * integral s (map a_point pts) c_old_old else 0) = 0.
Proof.
  intros s w tau pts g c_old c_oo inc [H1 H2] Hc Hs. set (c := advance_result s g inc).
  assert (S0 : sumn (l_n s) (conservative_residual s w pts c c_old c_oo) = 0).
  { apply sumn_zero. intros i Hi. apply (C44_matrix_equation s w tau pts g c_old c_oo inc Hs i Hi). apply Hc. exact Hi. }
  unfold conservative_residual in S0. rewrite <- suml_sumn in S0. unfold integral. rewrite !suml_map.
  etransitivity; [|exact S0]. clear S0. destruct (w_use_old_old w).
  - rewrite <- !suml_scal, <- !suml_plus. apply suml_ext. intros a Ha. cbv zeta. rewrite sumn_scal, sumn_minus, sumn_scal_r, sumn_scal_r, H1 by (apply in_map; exact Ha).
    rewrite sumn_swap. rewrite (sumn_zero (l_dim s)); [ring|]. intros d Hd. rewrite sumn_scal, H2 by (try apply in_map; assumption). ring.
  - rewrite Rplus_0_r. rewrite <- !suml_scal, <- !suml_plus. apply suml_ext. intros a Ha. cbv zeta. rewrite sumn_scal, sumn_minus, sumn_scal_r, sumn_scal_r, H1 by (apply in_map; exact Ha).
    rewrite sumn_swap. rewrite (sumn_zero (l_dim s)); [ring|]. intros d Hd. rewrite sumn_scal, H2 by (try apply in_map; assumption). ring.
Qed.
(** with convection stabilization the right hand side lacks the residual of the guess: for zero velocity and implicit Euler weights the
    level set is doubled instead of kept, on every mesh *)
Theorem C44_violation_matrix_stabilized : forall s tau pts dt c_old increment,
  unconstrained s -> good_space s (map a_point pts) -> 0 < dt -> (forall a d, In a pts -> a_vel a d = 0) ->
  solves (l_n s) (m_vmult s true (MkW (1/dt) (-1/dt) 0 false) tau pts) increment (m_rhs s true (MkW (1/dt) (-1/dt) 0 false) tau pts c_old c_old (fun _ => 0)) ->
  forall i, (i < l_n s)%nat -> advance_result s c_old increment i = 2 * c_old i.
Proof.
  intros s tau pts dt c_old inc Hc (HJ & _ & Hu) Hdt Hv Hs.
  assert (Hw : 0 < 1 / dt) by (apply Rdiv_lt_0_compat; lra).
  set (z := fun j => inc j - c_old j).
  assert (R0 : forall i, (i < l_n s)%nat -> suml pts (fun a => l_JxW (a_point a) * (l_shape (a_point a) i * lvalue s (a_point a) z)) = 0).
  { intros i Hi. specialize (Hs i Hi). unfold m_vmult, set_constrained, m_rhs in Hs. rewrite (Hc i Hi) in Hs.
    apply (Rmult_eq_reg_l (1/dt)); [|lra]. rewrite Rmult_0_r, <- suml_scal.
    transitivity (suml pts (fun a => sumn (l_n s) (fun j => m_entry s true (MkW (1/dt) (-1/dt) 0 false) tau a i j * lmask s inc j)) - suml pts (fun a => m_rhs_point s true (MkW (1/dt) (-1/dt) 0 false) tau a c_old c_old (fun _ => 0) i)); [|lra].
    rewrite <- suml_minus. apply suml_ext. intros a Ha. unfold m_entry, m_rhs_point, m_old_value. cbn [w_new w_old w_old_old w_use_old_old].
    assert (V : ldot s (a_vel a) (l_grad (a_point a) i) = 0) by (apply sumn_zero; intros d _; rewrite Hv by exact Ha; ring). rewrite V.
    assert (L : lvalue s (a_point a) z = lvalue s (a_point a) (lmask s inc) - lvalue s (a_point a) c_old).
    { unfold lvalue. rewrite <- sumn_minus. apply sumn_ext. intros j Hj. unfold z, lmask. rewrite Hc by exact Hj. ring. }
    rewrite L. rewrite (sumn_ext _ _ (fun j => 1 / dt * l_JxW (a_point a) * l_shape (a_point a) i * (lmask s inc j * l_shape (a_point a) j))) by (intros; ring).
    rewrite sumn_scal. fold (lvalue s (a_point a) (lmask s inc)). unfold Rdiv. ring. }
  assert (Q : suml pts (fun a => l_JxW (a_point a) * (lvalue s (a_point a) z * lvalue s (a_point a) z)) = 0).
  { transitivity (sumn (l_n s) (fun i => z i * suml pts (fun a => l_JxW (a_point a) * (l_shape (a_point a) i * lvalue s (a_point a) z)))).
    - rewrite (sumn_ext _ _ (fun i => suml pts (fun a => z i * (l_JxW (a_point a) * (l_shape (a_point a) i * lvalue s (a_point a) z))))) by (intros; rewrite suml_scal; reflexivity).
      rewrite <- suml_sumn. apply suml_ext. intros a _. rewrite (sumn_ext _ _ (fun i => l_JxW (a_point a) * lvalue s (a_point a) z * (z i * l_shape (a_point a) i))) by (intros; ring).
      rewrite sumn_scal. fold (lvalue s (a_point a) z). ring.
    - apply sumn_zero. intros i Hi. rewrite R0 by exact Hi. ring. }
  assert (Z : forall p, In p (map a_point pts) -> lvalue s p z = 0).
  { intros p Hp. apply in_map_iff in Hp. destruct Hp as (a & <- & Ha).
    assert (P : forall x, In x pts -> 0 <= l_JxW (a_point x) * (lvalue s (a_point x) z * lvalue s (a_point x) z)).
    { intros x Hx. specialize (HJ (a_point x) (in_map a_point _ _ Hx)). nra. }
    pose proof (suml_nonneg_zero _ _ P Q a Ha) as E. specialize (HJ (a_point a) (in_map a_point _ _ Ha)). apply Rmult_integral in E. destruct E; nra. }
  intros i Hi. pose proof (Hu z Z i Hi) as E. unfold z in E. unfold advance_result, ladd, ldistribute, lmask. rewrite Hc by exact Hi. lra.
Qed.
Print Assumptions C44_matrix_equation.
Print Assumptions C44_matrix_constrained.
Print Assumptions C44_matrix_stabilized_equation.
Print Assumptions C44_matrix_conserves.
Print Assumptions C44_violation_matrix_stabilized.
Example C44_violation_nonvacuous :
  let s := ex_space (fun _ => false) in let pts := map (fun p => MkAP p (fun _ => 0) 0) ex_points in
  solves (l_n s) (m_vmult s true (MkW (1/1) (-1/1) 0 false) (fun _ => 1/2) pts) (ex_vec 1 (-1)) (m_rhs s true (MkW (1/1) (-1/1) 0 false) (fun _ => 1/2) pts (ex_vec 1 (-1)) (ex_vec 1 (-1)) (fun _ => 0)) /\
  good_space s (map a_point pts) /\ unconstrained s.
Proof.
  cbv zeta. split; [|split].
  - intros [|[|i]] Hi; cbn in Hi; try lia; unfold m_vmult, set_constrained, m_rhs, m_entry, m_rhs_point, m_old_value, lvalue, ldot, lmask, ex_vec; cbn; lra.
  - split; [intros p [<-|[<-|[]]]; cbn; lra|]. split; [intros i _ H; cbn in H; discriminate|]. intros U H i Hi.
    pose proof (H (ex_point 0) (or_introl eq_refl)) as H0. pose proof (H (ex_point 1) (or_intror (or_introl eq_refl))) as H1.
    unfold lvalue in H0, H1. cbn in H0, H1, Hi. destruct i as [|[|i]]; [lra|lra|lia].
  - intros i _. reflexivity.
Qed.

(** ** C45 *)
Definition constant_vec (k : R) : lvec := fun _ => k.
Definition row_mass (pts : list lpoint) (i : nat) : R := suml pts (fun p => l_JxW p * l_shape p i).
Lemma constant_value s pts k p : partition_of_unity s pts -> In p pts -> lvalue s p (fun _ => k) = k.
Proof. intros [H1 _] Hp. unfold lvalue. rewrite sumn_scal, H1 by exact Hp. ring. Qed.
Lemma constant_gradient s pts k p d : partition_of_unity s pts -> In p pts -> (d < l_dim s)%nat -> lgradient s p (fun _ => k) d = 0.
Proof. intros [_ H2] Hp Hd. unfold lgradient. rewrite sumn_scal, H2 by assumption. ring. Qed.
Lemma unconstrained_mask s U p : unconstrained s -> lvalue s p (lmask s U) = lvalue s p U.
Proof. intros Hc. apply lvalue_ext. intros i Hi. unfold lmask. rewrite Hc by exact Hi. reflexivity. Qed.
Lemma unconstrained_mask_grad s U p d : unconstrained s -> lgradient s p (lmask s U) d = lgradient s p U d.
Proof. intros Hc. apply lgradient_ext. intros i Hi. unfold lmask. rewrite Hc by exact Hi. reflexivity. Qed.
(** the operator without the mass term (setting 2), which the comment in the code asks for, keeps constants: it maps them to zero *)
Theorem C45_diffusion_keeps_constants : forall s pts mind deg k i,
  partition_of_unity s pts -> unconstrained s -> curvature_local s pts 2 mind deg (constant_vec k) i = 0.
Proof.
  intros s pts mind deg k i Hp Hc. unfold curvature_local, lintegrate. destruct (l_con s i); [reflexivity|]. unfold ltest. apply suml_zero. intros p Hin. cbn [Nat.ltb Nat.leb Nat.modulo Nat.divmod snd Nat.sub Nat.eqb].
  unfold ldot. rewrite sumn_zero; [ring|]. intros; ring.
Qed.
(** setting 3 (gradients without values) is the pure diffusion and keeps constants as well *)
Theorem C45_pure_diffusion_keeps_constants : forall s pts mind deg k i,
  partition_of_unity s pts -> unconstrained s -> curvature_local s pts 3 mind deg (constant_vec k) i = 0.
Proof.
  intros s pts mind deg k i Hp Hc. unfold curvature_local, lintegrate. destruct (l_con s i); [reflexivity|]. unfold ltest. apply suml_zero. intros p Hin. cbn [Nat.ltb Nat.leb Nat.modulo Nat.divmod snd Nat.sub Nat.eqb].
  unfold ldot. rewrite sumn_zero; [ring|]. intros d Hd. rewrite unconstrained_mask_grad by exact Hc. unfold constant_vec. rewrite (constant_gradient s pts k p d Hp Hin Hd). ring.
Qed.
Lemma damping_constant s pts mind deg inv k i : partition_of_unity s pts -> unconstrained s -> (i < l_n s)%nat ->
  damping_step s pts mind deg inv 2 (constant_vec k) i = k * (1 - 5/100 * (inv i * row_mass pts i)).
Proof.
  intros Hp Hc Hi. unfold damping_step, ldistribute, lmask. rewrite Hc by exact Hi. unfold curvature_vmult, set_constrained, int_to_bool. rewrite Hc by exact Hi. cbn [Nat.eqb negb].
  assert (E : curvature_local s pts 1 mind deg (constant_vec k) i = k * row_mass pts i).
  { unfold curvature_local, lintegrate. rewrite Hc by exact Hi. unfold ltest, row_mass. rewrite <- suml_scal. apply suml_ext. intros p Hin. cbn [Nat.ltb Nat.leb Nat.modulo Nat.divmod snd Nat.sub Nat.eqb].
    rewrite unconstrained_mask by exact Hc. unfold constant_vec. rewrite (constant_value s pts k p Hp Hin). unfold ldot. rewrite sumn_zero; [ring|].
    intros d Hd. rewrite unconstrained_mask_grad by exact Hc. rewrite (constant_gradient s pts k p d Hp Hin Hd). ring. }
  rewrite E. unfold constant_vec. ring.
Qed.
(** what the code does: one step changes every non-zero constant *)
Theorem C45_violation_step : forall s pts mind deg inv k i,
  partition_of_unity s pts -> unconstrained s -> (i < l_n s)%nat -> k <> 0 -> 0 < inv i -> 0 < row_mass pts i ->
  damping_step s pts mind deg inv 2 (constant_vec k) i <> k.
Proof.
  intros s pts mind deg inv k i Hp Hc Hi Hk Hinv Hm. rewrite damping_constant by assumption. intros E. assert (0 < inv i * row_mass pts i) by nra.
  assert (k * (inv i * row_mass pts i) = 0) by lra. apply Rmult_integral in H0. destruct H0; lra.
Qed.
Lemma damping_ext s pts mind deg inv arg k k' : (forall j, (j < l_n s)%nat -> k j = k' j) -> forall j, (j < l_n s)%nat -> damping_step s pts mind deg inv arg k j = damping_step s pts mind deg inv arg k' j.
Proof.
  intros H j Hj. assert (M : forall i, (i < l_n s)%nat -> lmask s k i = lmask s k' i) by (intros i Hi; unfold lmask; rewrite H by exact Hi; reflexivity).
  unfold damping_step, ldistribute, lmask at 1. unfold lmask at 1. destruct (l_con s j) eqn:E; [reflexivity|]. rewrite H by exact Hj. f_equal. f_equal. f_equal.
  unfold curvature_vmult, set_constrained. rewrite E. unfold curvature_local, lintegrate. rewrite E. unfold ltest. apply suml_ext. intros p _.
  rewrite (lvalue_ext s p _ _ M). f_equal. f_equal. apply ldot_ext; [|reflexivity]. intros d _. rewrite (lgradient_ext s p _ _ d M). reflexivity.
Qed.
(** with the lumped mass matrix as preconditioner the eight steps multiply a constant curvature by 0.95^8 = 0.66 *)
Theorem C45_violation_factor : forall s pts mind deg inv k,
  partition_of_unity s pts -> unconstrained s -> (forall i, (i < l_n s)%nat -> inv i * row_mass pts i = 1) ->
  forall i, (i < l_n s)%nat -> smooth_curvature s pts mind deg inv (constant_vec k) i = (95/100) ^ 8 * k.
Proof.
  intros s pts mind deg inv k Hp Hc Hinv.
  assert (G : forall n k' U, (forall i, (i < l_n s)%nat -> U i = k') -> forall i, (i < l_n s)%nat -> damping_steps s pts mind deg inv n U i = (95/100) ^ n * k').
  { induction n; intros k' U HU i Hi; [cbn; rewrite HU by exact Hi; ring|]. cbn [damping_steps]. rewrite (IHn (95/100 * k')); [cbn; ring| |exact Hi].
    intros j Hj. rewrite (damping_ext s pts mind deg inv 2 U (constant_vec k')) by (try exact Hj; intros; rewrite HU by assumption; reflexivity).
    rewrite damping_constant by assumption. rewrite Hinv by exact Hj. lra. }
  intros i Hi. apply G; [reflexivity|exact Hi].
Qed.
Print Assumptions C45_diffusion_keeps_constants.
Print Assumptions C45_pure_diffusion_keeps_constants.
Print Assumptions C45_violation_step.
Print Assumptions C45_violation_factor.
Example C45_nonvacuous : let s := ex_space (fun _ => false) in
  (forall i, (i < l_n s)%nat -> (fun _ => 2) i * row_mass ex_points i = 1) /\ smooth_curvature s ex_points 1 1 (fun _ => 2) (constant_vec 1) 1%nat < 67/100.
Proof.
  cbv zeta. assert (M : forall i, (i < l_n (ex_space (fun _ => false)))%nat -> (fun _ => 2) i * row_mass ex_points i = 1).
  { intros [|[|i]] Hi; cbn in Hi; try lia; unfold row_mass; cbn; lra. }
  split; [exact M|]. rewrite C45_violation_factor; [cbn; lra| | |exact M|cbn; lia].
  - split; intros p; [intros [<-|[<-|[]]]|intros d [<-|[<-|[]]] Hd]; cbn; lra.
  - intros i _. reflexivity.
Qed.
