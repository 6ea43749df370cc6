(** * Property theorems C81, C82: the matrices of the preconditioner *)
From Coq Require Import Reals QArith List Bool Lia Lra SpecFloat FunctionalExtensionality.
From Verif Require Import Num SumR Model_Parameters Model_NSOperator Model_VelocityMatrix.
Import ListNotations.
Open Scope R_scope.

(** ** Specification *)
(** The operator of the time step (Model_NSOperator.v, proved to be the derivative of the residual in C24) restricted to the velocity
    component d: trial and test functions have this component only. *)
Definition block_point (d : nat) (q : vpt RNum) : qpoint :=
  MkPoint (v_JxW q) (fun i e => if Nat.eqb e d then v_phi q i else 0) (fun i a e => if Nat.eqb a d then v_grad q i e else 0) (fun _ => 0)
          (v_rho q) (v_nu q) (v_damping q) (fun _ => 0) (fun _ _ => 0) (fun _ => 0) (fun _ _ => 0).
Definition block_setting (s : vset RNum) (lin : linearization) (n : nat) : setting :=
  MkSetting (v_dim s) n 0 (fun _ => false) (fun _ => false) (v_type s) lin 0 (v_weight s) 0 0 (v_tau s) 0 0 (v_tau_grad_div s).
Definition unit_vector (j : nat) : nat -> R := fun k => if Nat.eqb k j then 1 else 0.
Definition linearization_point (q : vpt RNum) : stored := match v_lin q with Some l => l | None => (fun _ => 0, fun _ _ => 0) end.
(** entry (i,j) of the operator *)
Definition operator_entry (s : vset RNum) (lin : linearization) (pts : list (vpt RNum)) (d i j : nat) : R :=
  velocity_vmult (block_setting s lin (S j)) (map (fun q => (block_point d q, linearization_point q)) pts) (unit_vector j) i.
(** the scalar Laplace form *)
Definition laplace_form (dim : nat) (w : vpt RNum -> R) (pts : list (vpt RNum)) (i j : nat) : R :=
  suml pts (fun q => w q * sumn dim (fun e => v_grad q i e * v_grad q j e)).

(** ** Auxiliary *)
Lemma nsum_R (a : R) (l : list R) : nsum_from (N:=RNum) a l = a + suml l (fun x => x).
Proof. revert a; induction l as [|x l IH]; intros a; cbn; [ring|]. rewrite IH. rnum. ring. Qed.
Lemma suml_flat {A B} (f : A -> list B) (l : list A) (g : B -> R) : suml (flat_map f l) g = suml l (fun x => suml (f x) g).
Proof. induction l as [|x l IH]; cbn; auto. rewrite suml_app, IH. auto. Qed.
Lemma suml_seq n k f : suml (seq k n) f = sumn n (fun i => f (k + i)%nat).
Proof.
  revert k f; induction n as [|n IH]; intros k f; auto. rewrite seq_S, suml_app, IH. cbn. ring.
Qed.
Lemma suml_seq0 n f : suml (seq 0 n) f = sumn n f.
Proof. rewrite suml_seq. apply sumn_ext. auto. Qed.
Lemma sumn_first n (h : nat -> R) : h 0%nat + sumn n (fun i => h (1 + i)%nat) = sumn (S n) h.
Proof. induction n as [|n IH]; cbn [sumn] in *; [ring|]. rewrite <- Rplus_assoc, IH. reflexivity. Qed.
Lemma sumn_pick n d f : (d < n)%nat -> sumn n (fun e => if Nat.eqb e d then f e else 0) = f d.
Proof.
  intros H. rewrite (sumn_delta n d); auto; [rewrite Nat.eqb_refl; auto|]. intros i _ Hi. destruct (Nat.eqb_spec i d); [contradiction|auto].
Qed.
Lemma Q2R_01 : Q2R (0#1) = 0. Proof. unfold Q2R; cbn; lra. Qed.
Lemma unit_eval_value s lin d q j e : eval_value (block_setting s lin (S j)) (block_point d q) (unit_vector j) e = if Nat.eqb e d then v_phi q j else 0.
Proof.
  unfold eval_value, block_point, unit_vector; cbn [n_u phi block_setting]. rewrite (sumn_delta (S j) j); [rewrite Nat.eqb_refl; ring|lia|].
  intros i _ Hi. destruct (Nat.eqb_spec i j); [contradiction|ring].
Qed.
Lemma unit_eval_gradient s lin d q j a e : eval_gradient (block_setting s lin (S j)) (block_point d q) (unit_vector j) a e = if Nat.eqb a d then v_grad q j e else 0.
Proof.
  unfold eval_gradient, block_point, unit_vector; cbn [n_u dphi block_setting]. rewrite (sumn_delta (S j) j); [rewrite Nat.eqb_refl; ring|lia|].
  intros i _ Hi. destruct (Nat.eqb_spec i j); [contradiction|ring].
Qed.
Lemma masked_none u : masked (fun _ => false) u = u.
Proof. apply functional_extensionality. intros k. reflexivity. Qed.
(** the operator entry, written out *)
Lemma operator_entry_spec s lin pts d i j : (d < v_dim s)%nat ->
  operator_entry s lin pts d i j = suml pts (fun q =>
    let l := linearization_point q in
    let u : vec := fun e => if Nat.eqb e d then v_phi q j else 0 in
    let g : ten := fun a e => if Nat.eqb a d then v_grad q j e else 0 in
    v_JxW q * (o_value (vmult_point (block_setting s lin (S j)) (block_point d q) false l u g 0) d * v_phi q i
      + (v_nu q * v_tau s * sumn (v_dim s) (fun e => v_grad q j e * v_grad q i e)
         + (v_nu q * v_tau s + v_tau_grad_div s) * (v_grad q j d * v_grad q i d)))).
Proof.
  intros Hd. unfold operator_entry, velocity_vmult. cbn [constrained_u block_setting]. rewrite masked_none, suml_map.
  apply suml_ext. intros q _. cbn [fst snd]. cbv zeta.
  replace (eval_value (block_setting s lin (S j)) (block_point d q) (unit_vector j)) with ((fun e => if Nat.eqb e d then v_phi q j else 0) : vec)
    by (apply functional_extensionality; intros e; symmetry; apply unit_eval_value).
  replace (eval_gradient (block_setting s lin (S j)) (block_point d q) (unit_vector j)) with ((fun a e => if Nat.eqb a d then v_grad q j e else 0) : ten)
    by (apply functional_extensionality; intros a; apply functional_extensionality; intros e; symmetry; apply unit_eval_gradient).
  unfold test_velocity. cbn [dim block_setting JxW phi dphi block_point]. f_equal. f_equal.
  - rewrite (sumn_ext (v_dim s) _ (fun e => if Nat.eqb e d then o_value (vmult_point (block_setting s lin (S j)) (block_point d q) false (linearization_point q) (fun e => if Nat.eqb e d then v_phi q j else 0) (fun a e => if Nat.eqb a d then v_grad q j e else 0) 0) e * v_phi q i else 0)).
    + apply sumn_pick, Hd.
    + intros e _. destruct (Nat.eqb e d); ring.
  - cbn [o_gradient vmult_point]. unfold vmult_point. cbn [o_gradient].
    set (st := stress _ _ _ _ _).
    rewrite (sumn_ext (v_dim s) _ (fun a => if Nat.eqb a d then sumn (v_dim s) (fun e => st a e * v_grad q i e) else 0)).
    2: { intros a _. destruct (Nat.eqb a d); auto. apply sumn_zero. intros; ring. }
    rewrite sumn_pick by auto.
    rewrite (sumn_ext (v_dim s) _ (fun e => v_nu q * v_tau s * (v_grad q j e * v_grad q i e) + (if Nat.eqb e d then (v_nu q * v_tau s + v_tau_grad_div s) * (v_grad q j e * v_grad q i e) else 0))).
    2: { intros e _. unfold st, stress. cbn [mu s_tau1 tau_grad_div dim block_setting block_point]. rewrite (Nat.eqb_sym d e), !Nat.eqb_refl.
         destruct (Nat.eqb_spec e d) as [->|He]; [|ring].
         replace (trace (v_dim s) (fun a e => if Nat.eqb a d then v_grad q j e else 0)) with (v_grad q j d); [rnum; ring|].
         unfold trace. symmetry. apply (sumn_pick _ d (fun a => v_grad q j a) Hd). }
    rewrite sumn_plus, sumn_scal, sumn_pick by auto. reflexivity.
Qed.
Lemma velocity_entry_spec s pts d i j : (d < v_dim s)%nat ->
  velocity_entry (N:=RNum) s pts d i j = suml pts (fun q =>
    weight_nu s q * (sumn (v_dim s) (fun e => v_grad q i e * v_grad q j e) + v_grad q i d * v_grad q j d)
    + v_phi q i * weight_rho q * phi_and_grad_matrix s q (v_dim s) j d).
Proof.
  intros Hd. unfold velocity_entry. rewrite nsum_R, suml_map. rnum. rewrite Q2R_01, Rplus_0_l. unfold rows. rewrite suml_flat.
  apply suml_ext. intros q _. rewrite suml_map, Nat.add_1_r, suml_seq0. cbn [sumn fst snd].
  unfold phi_matrix at 2. rewrite Nat.ltb_irrefl. rnum. 
  rewrite (sumn_ext (v_dim s) _ (fun e => weight_nu s q * (v_grad q i e * v_grad q j e) + (if Nat.eqb e d then weight_nu s q * (v_grad q i e * v_grad q j e) else 0))).
  2: { intros e He. unfold phi_matrix, phi_and_grad_matrix. apply Nat.ltb_lt in He. rewrite He. rnum. destruct (Nat.eqb e d); ring. }
  rewrite sumn_plus, sumn_scal, (sumn_pick _ d (fun e => weight_nu s q * (v_grad q i e * v_grad q j e))) by auto. ring.
Qed.

(** ** C81 *)
Definition good (q : vpt RNum) : Prop := v_JxW q <> 0 /\ v_rho q <> 0.
(** For a fluid with density: the matrix of the ILU and AMG preconditioners is the diagonal block of the Jacobian of the time step
    (Newton linearization, convective form of the convective term) plus the grad-div parameter times the Laplace form. *)
Theorem C81_newton_block : forall (s : vset RNum) (pts : list (vpt RNum)) d i j,
  (d < v_dim s)%nat -> v_type s <> stokes -> (forall q, In q pts -> good q /\ v_lin q <> None) ->
  velocity_entry (N:=RNum) s pts d i j =
  operator_entry s coupled_implicit_newton pts d i j + laplace_form (v_dim s) (fun q => v_JxW q * v_tau_grad_div s) pts i j.
Proof.
  intros s pts d i j Hd Ht Hq. rewrite velocity_entry_spec, operator_entry_spec by auto. unfold laplace_form. rewrite <- suml_plus.
  apply suml_ext. intros q Iq. destruct (Hq q Iq) as [[HJ Hr] HL]. cbv zeta. unfold linearization_point.
  unfold phi_and_grad_matrix. rewrite Nat.ltb_irrefl. unfold phi_and_grad. destruct (v_lin q) as [[l1 l2]|]; [clear HL|contradiction].
  rewrite nsum_R, suml_map, suml_seq0. rnum. cbn [fst snd].
  unfold vmult_point, block_setting, block_point. cbn [s_lin is_newton o_value s_type dim s_tau1 beta rho damping time_step_weight s_weight].
  assert (NS : is_stokes_type (v_type s) = false) by (destruct (v_type s); auto; contradiction). rewrite NS. cbv beta. cbn [fst snd].
  rewrite (sumn_ext (v_dim s) (fun e => l1 e * (if Nat.eqb d d then v_grad q j e else 0) + (if Nat.eqb e d then v_phi q j else 0) * l2 d e)
             (fun e => l1 e * v_grad q j e + (if Nat.eqb e d then v_phi q j * l2 d e else 0))).
  2: { intros e _. rewrite Nat.eqb_refl. destruct (Nat.eqb e d); ring. }
  rewrite sumn_plus, (sumn_pick _ d (fun e => v_phi q j * l2 d e)) by auto. rewrite Nat.eqb_refl.
  rewrite (sumn_ext (v_dim s) (fun x => v_tau s * v_grad q j x * l1 x) (fun x => v_tau s * (l1 x * v_grad q j x))) by (intros; ring).
  rewrite sumn_scal. unfold time_part, weight_nu, weight_rho, weight_damping. rnum.
  rewrite (sumn_ext (v_dim s) (fun e => v_grad q j e * v_grad q i e) (fun e => v_grad q i e * v_grad q j e)) by (intros; ring).
  replace (v_JxW q * v_damping q / (v_JxW q * v_rho q)) with (v_damping q / v_rho q) by (field; auto).
  unfold time_step_weight. cbn [s_type s_weight].
  generalize (sumn (v_dim s) (fun e => v_grad q i e * v_grad q j e)) as A. generalize (sumn (v_dim s) (fun e => l1 e * v_grad q j e)) as B. intros B A.
  destruct (v_type s) eqn:T; cbn [is_stokes_type is_transient]; [| |contradiction]; rewrite ?Q2R_01; rnum; field; auto.
Qed.
Print Assumptions C81_newton_block.
(** The same without linearization point (explicit convection). *)
Theorem C81_explicit_block : forall (s : vset RNum) (pts : list (vpt RNum)) d i j,
  (d < v_dim s)%nat -> v_type s <> stokes -> (forall q, In q pts -> good q /\ v_lin q = None) ->
  velocity_entry (N:=RNum) s pts d i j =
  operator_entry s coupled_velocity_explicit pts d i j + laplace_form (v_dim s) (fun q => v_JxW q * v_tau_grad_div s) pts i j.
Proof.
  intros s pts d i j Hd Ht Hq. rewrite velocity_entry_spec, operator_entry_spec by auto. unfold laplace_form. rewrite <- suml_plus.
  apply suml_ext. intros q Iq. destruct (Hq q Iq) as [[HJ Hr] HL]. cbv zeta. unfold linearization_point.
  unfold phi_and_grad_matrix. rewrite Nat.ltb_irrefl. unfold phi_and_grad. rewrite HL.
  unfold vmult_point, block_setting, block_point. cbn [s_lin is_newton is_explicit negb o_value s_type dim s_tau1 beta rho damping time_step_weight s_weight].
  assert (NS : is_stokes_type (v_type s) = false) by (destruct (v_type s); auto; contradiction). rewrite NS. cbv beta.
  unfold time_part, weight_nu, weight_rho, weight_damping. rnum. rewrite Nat.eqb_refl.
  rewrite (sumn_ext (v_dim s) (fun e => v_grad q j e * v_grad q i e) (fun e => v_grad q i e * v_grad q j e)) by (intros; ring).
  replace (v_JxW q * v_damping q / (v_JxW q * v_rho q)) with (v_damping q / v_rho q) by (field; auto).
  unfold time_step_weight. cbn [s_type s_weight].
  generalize (sumn (v_dim s) (fun e => v_grad q i e * v_grad q j e)) as A. intros A.
  destruct (v_type s) eqn:T; cbn [is_stokes_type is_transient]; [| |contradiction]; rewrite ?Q2R_01; rnum; field; auto.
Qed.
Print Assumptions C81_explicit_block.
(** The scalar ILU: one matrix for all components, without the off-diagonal part of the stress and without the reaction term of Newton's method. *)
Theorem C81_scalar_matrix : forall (s : vset RNum) (pts : list (vpt RNum)) i j, (forall q, In q pts -> good q) ->
  let w := match v_type s with incompressible_stationary => 0 | _ => v_weight s end in
  scalar_entry (N:=RNum) s pts i j =
  laplace_form (v_dim s) (fun q => v_JxW q * (v_tau_grad_div s + v_nu q * v_tau s)) pts i j +
  suml pts (fun q => v_JxW q * v_phi q i * (v_rho q * w * v_phi q j - v_damping q * v_phi q j
     + match v_lin q with Some l => v_rho q * v_tau s * sumn (v_dim s) (fun e => fst l e * v_grad q j e) | None => 0 end)).
Proof.
  intros s pts i j Hq. cbv zeta. unfold scalar_entry, laplace_form. rewrite nsum_R, suml_map. rnum. rewrite Q2R_01, Rplus_0_l, <- suml_plus.
  unfold rows. rewrite suml_flat. apply suml_ext. intros q Iq. destruct (Hq q Iq) as [HJ Hr].
  rewrite suml_map, Nat.add_1_r, suml_seq0. cbn [sumn fst snd].
  unfold phi_matrix at 2. unfold phi_and_grad_scalar at 2. rewrite Nat.ltb_irrefl. rnum.
  rewrite (sumn_ext (v_dim s) _ (fun e => weight_nu s q * (v_grad q i e * v_grad q j e))).
  2: { intros e He. unfold phi_matrix, phi_and_grad_scalar. apply Nat.ltb_lt in He. rewrite He. rnum. ring. }
  rewrite sumn_scal. unfold phi_and_grad, time_part, weight_nu, weight_rho, weight_damping.
  destruct (v_lin q) as [[l1 l2]|]; [rewrite nsum_R, suml_map, suml_seq0|]; rnum; cbn [fst snd].
  - rewrite (sumn_ext (v_dim s) (fun x => v_tau s * v_grad q j x * l1 x) (fun x => v_tau s * (l1 x * v_grad q j x))) by (intros; ring).
    rewrite sumn_scal. generalize (sumn (v_dim s) (fun e => v_grad q i e * v_grad q j e)) as A. generalize (sumn (v_dim s) (fun e => l1 e * v_grad q j e)) as B. intros B A.
    destruct (v_type s); rewrite ?Q2R_01; field; auto.
  - generalize (sumn (v_dim s) (fun e => v_grad q i e * v_grad q j e)) as A. intros A. destruct (v_type s); rewrite ?Q2R_01; field; auto.
Qed.
Print Assumptions C81_scalar_matrix.

(** AMG on linear subelements: exactly the diagonal block of the operator, grad-div included, for the (linear) shape functions of the subelement
    with the coefficients of the first quadrature point. *)
Definition linear_point (s : vset RNum) (k : coeff RNum) (q : lpt RNum) : vpt RNum :=
  MkVpt (N:=RNum) (e_JxW q) (k_nu k) (k_rho k) (k_damping k) (e_val q) (fun i e => sumn (v_dim s) (fun f => e_jac q e f * e_unit_grad q i f)) (k_lin k).
Theorem C81_linear_block : forall (s : vset RNum) (k : coeff RNum) (pts : list (lpt RNum)) d i j,
  (d < v_dim s)%nat -> v_type s <> stokes -> k_rho k <> 0 -> k_lin k <> None -> (forall q, In q pts -> e_JxW q <> 0) ->
  linear_entry (N:=RNum) s k pts d i j = operator_entry s coupled_implicit_newton (map (linear_point s k) pts) d i j.
Proof.
  intros s k pts d i j Hd Ht Hr HL HJ. rewrite operator_entry_spec, suml_map by auto. unfold linear_entry.
  rewrite nsum_R. rnum. rewrite Q2R_01, Rplus_0_l, suml_flat. apply suml_ext. intros q Iq. specialize (HJ q Iq). cbv zeta.
  destruct (k_lin k) as [[l1 l2]|] eqn:EL; [clear HL|contradiction].
  cbn [suml]. rewrite suml_map, suml_seq0.
  set (G := fun i e => sumn (v_dim s) (fun f => e_jac q e f * e_unit_grad q i f)).
  assert (EG : forall i e, e_grad (N:=RNum) (v_dim s) q i e = G i e).
  { intros i0 e. unfold e_grad, G. rewrite nsum_R, suml_map, suml_seq0. rnum. rewrite Q2R_01, Rplus_0_l. reflexivity. }
  assert (DG : forall e, data_for_grad s k q d j e = sumn (v_dim s) (fun f => e_jac q f e * grad_for_test s k q d j f)).
  { intros e. unfold data_for_grad. rewrite nsum_R, suml_map, suml_seq. rnum. destruct (v_dim s) as [|n] eqn:ED; [lia|].
    rewrite Nat.sub_succ, Nat.sub_0_r. exact (sumn_first n (fun f => e_jac q f e * grad_for_test s k q d j f)). }
  rewrite (sumn_ext (v_dim s) _ (fun e => sumn (v_dim s) (fun f => e_unit_grad q i e * (e_jac q f e * grad_for_test s k q d j f)))).
  2: { intros e _. rewrite DG, <- sumn_scal. reflexivity. }
  rewrite sumn_swap.
  rewrite (sumn_ext (v_dim s) _ (fun f => G i f * grad_for_test s k q d j f)).
  2: { intros f _. unfold G. rewrite <- sumn_scal_r. apply sumn_ext. intros; rnum; ring. }
  rewrite (sumn_ext (v_dim s) _ (fun f => e_JxW q * (k_nu k * v_tau s) * (G j f * G i f) + (if Nat.eqb f d then e_JxW q * (k_nu k * v_tau s + v_tau_grad_div s) * (G j f * G i f) else 0))).
  2: { intros f _. unfold grad_for_test. rewrite !EG. rnum. destruct (Nat.eqb_spec f d) as [->|]; ring. }
  rewrite sumn_plus, sumn_scal, (sumn_pick _ d (fun f => e_JxW q * (k_nu k * v_tau s + v_tau_grad_div s) * (G j f * G i f))) by auto.
  unfold data_for_val. rewrite EL. rewrite nsum_R, suml_map, suml_seq0. rnum. cbn [fst snd].
  rewrite (sumn_ext (v_dim s) (fun x => v_tau s * e_grad (v_dim s) q j x * l1 x) (fun x => v_tau s * (l1 x * G j x))) by (intros; rewrite EG; ring).
  rewrite sumn_scal.
  unfold vmult_point, linear_point, linearization_point, block_setting, block_point. cbn [s_lin is_newton o_value s_type dim s_tau1 beta rho damping time_step_weight s_weight v_rho v_damping v_phi v_grad v_lin v_JxW v_nu].
  rewrite EL. fold (G j). fold (G i).
  assert (NS : is_stokes_type (v_type s) = false) by (destruct (v_type s); auto; contradiction). rewrite NS. cbv beta. cbn [fst snd].
  rewrite (sumn_ext (v_dim s) (fun e => l1 e * (if Nat.eqb d d then sumn (v_dim s) (fun f => e_jac q e f * e_unit_grad q j f) else 0) + (if Nat.eqb e d then e_val q j else 0) * l2 d e)
             (fun e => l1 e * G j e + (if Nat.eqb e d then e_val q j * l2 d e else 0))).
  2: { intros e _. rewrite Nat.eqb_refl. unfold G. destruct (Nat.eqb e d); ring. }
  rewrite sumn_plus, (sumn_pick _ d (fun e => e_val q j * l2 d e)) by auto. rewrite Nat.eqb_refl.
  unfold time_step_weight. cbn [s_type s_weight].
  change (sumn (v_dim s) (fun e => sumn (v_dim s) (fun f => e_jac q e f * e_unit_grad q j f) * sumn (v_dim s) (fun f => e_jac q e f * e_unit_grad q i f))) with (sumn (v_dim s) (fun e => G j e * G i e)).
  change (sumn (v_dim s) (fun f => e_jac q d f * e_unit_grad q j f)) with (G j d). change (sumn (v_dim s) (fun f => e_jac q d f * e_unit_grad q i f)) with (G i d).
  generalize (sumn (v_dim s) (fun e => G j e * G i e)) as A. generalize (sumn (v_dim s) (fun e => l1 e * G j e)) as B. generalize (G j d) (G i d). clearbody G. intros gj gi B A.
  destruct (v_type s) eqn:T; cbn [is_transient]; [| |contradiction]; rewrite ?Q2R_01; rnum; field; auto.
Qed.
Print Assumptions C81_linear_block.

(** Violation: for a Stokes problem (density 0, no damping, see C11) the division of the damping by the density weight is 0/0 in floating
    point and every entry of every cell matrix is NaN - for the full, the scalar and the linear assembly, on every mesh. *)
Lemma nan_l (x : F64) : nadd (n:=FNum) S754_nan x = S754_nan. Proof. reflexivity. Qed.
Lemma nan_r (x : F64) : nadd (n:=FNum) x S754_nan = S754_nan. Proof. destruct x; reflexivity. Qed.
Lemma nan_ml (x : F64) : nmul (n:=FNum) S754_nan x = S754_nan. Proof. reflexivity. Qed.
Lemma nan_mr (x : F64) : nmul (n:=FNum) x S754_nan = S754_nan. Proof. destruct x; reflexivity. Qed.
Lemma nan_sr (x : F64) : nsub (n:=FNum) x S754_nan = S754_nan. Proof. destruct x; reflexivity. Qed.
Lemma nsum_nan l : nsum_from (N:=FNum) S754_nan l = S754_nan.
Proof. induction l as [|x l IH]; cbn [nsum_from]; auto. Qed.
Lemma nsum_in a l : In S754_nan l -> nsum_from (N:=FNum) a l = S754_nan.
Proof.
  revert a; induction l as [|x l IH]; intros a H; [destruct H|]. cbn [nsum_from]. destruct H as [->|H]; [rewrite nan_r; apply nsum_nan|auto].
Qed.
Lemma zero_over_zero (x : F64) b1 b2 : ndiv (n:=FNum) (nmul (n:=FNum) x (S754_zero b1)) (nmul (n:=FNum) x (S754_zero b2)) = S754_nan.
Proof. destruct x; reflexivity. Qed.
Theorem C81_violation_stokes : forall (s : vset FNum) b1 b2,
  (forall (pts : list (vpt FNum)) q, In q pts -> v_rho q = S754_zero b1 -> v_damping q = S754_zero b2 ->
     forall d i j, velocity_entry s pts d i j = S754_nan /\ scalar_entry s pts i j = S754_nan) /\
  (forall (pts : list (lpt FNum)) (k : coeff FNum), pts <> [] -> k_rho k = S754_zero b1 -> k_damping k = S754_zero b2 ->
     forall d i j, linear_entry s k pts d i j = S754_nan).
Proof.
  intros s b1 b2. split.
  - intros pts q Iq Hr Hd d i j.
    assert (T : time_part s q j = S754_nan).
    { unfold time_part, weight_damping, weight_rho. rewrite Hr, Hd, zero_over_zero, nan_ml. apply nan_sr. }
    assert (P : phi_and_grad s q j = S754_nan).
    { unfold phi_and_grad. destruct (v_lin q); [rewrite T; apply nsum_nan|auto]. }
    assert (I : In (q, v_dim s) (rows s pts)).
    { unfold rows. apply in_flat_map. exists q. split; auto. apply in_map. apply in_seq. lia. }
    split; (apply nsum_in; apply in_map_iff; exists (q, v_dim s); split; [|exact I]); cbn [fst snd].
    + unfold phi_and_grad_matrix. rewrite Nat.ltb_irrefl, P. destruct (v_lin q); [rewrite nan_l|]; apply nan_mr.
    + unfold phi_and_grad_scalar. rewrite Nat.ltb_irrefl, P. apply nan_mr.
  - intros pts k Hp Hr Hd d i j. destruct pts as [|q pts]; [contradiction|]. apply nsum_in. cbn [flat_map]. left.
    assert (D : data_for_val s k q d j = S754_nan).
    { unfold data_for_val. rewrite Hr, Hd, zero_over_zero, nan_ml, nan_sr. destruct (k_lin k) as [l|]; [rewrite nsum_nan, nan_l|]; apply nan_mr. }
    rewrite D. apply nan_mr.
Qed.
Print Assumptions C81_violation_stokes.
Example C81_nonvacuous : exists (s : vset RNum) pts, v_type s <> stokes /\ (forall q, In q pts -> good q /\ v_lin q <> None) /\
  velocity_entry (N:=RNum) s pts 0 0 0 <> 0.
Proof.
  exists (MkVset (N:=RNum) 1 incompressible 1 1 0), [MkVpt (N:=RNum) 1 1 1 0 (fun _ => 1) (fun _ _ => 1) (Some (fun _ => 1, fun _ _ => 1))].
  split; [discriminate|]. split; [intros q [<-|[]]; split; [split; cbn; lra|discriminate]|].
  rewrite velocity_entry_spec by (cbn; lia). cbn. rewrite Q2R_01 || idtac. unfold time_part, weight_damping, weight_rho, weight_nu. cbn. lra.
Qed.

(** ** C82 *)
(** entry of the weighted Laplace and mass forms of the pressure *)
Definition p_laplace (dim : nat) (w : ppt RNum -> R) (pts : list (ppt RNum)) (i j : nat) : R :=
  suml pts (fun q => w q * sumn dim (fun e => p_dpsi q i e * p_dpsi q j e)).
Definition p_mass (w : ppt RNum -> R) (pts : list (ppt RNum)) (i j : nat) : R := suml pts (fun q => w q * (p_psi q i * p_psi q j)).
Definition quadratic (n : nat) (A : nat -> nat -> R) (x : nat -> R) : R := sumn n (fun i => sumn n (fun j => x i * A i j * x j)).
(** With positive density: the pressure matrix is the Laplace form with coefficient 1/(weight * rho) (1 for stationary problems). *)
Theorem C82_poisson : forall (s : vset RNum) variable rho_min (pts : list (ppt RNum * (nat -> nat -> R))) i j,
  (forall qb, In qb pts -> 0 <= p_JxW (fst qb) /\ 0 < (if variable : bool then p_rho (fst qb) else rho_min)) -> 0 < v_weight s ->
  pressure_entry (N:=RNum) sqrt s variable rho_min pts i j =
  p_laplace (v_dim s) (fun q => p_JxW q / match v_type s with incompressible_stationary => 1 | _ => v_weight s * (if variable : bool then p_rho q else rho_min) end) (map fst pts) i j.
Proof.
  intros s variable rmin pts i j H Hw. unfold pressure_entry, p_laplace. rewrite nsum_R, suml_flat, suml_map. rnum. rewrite Q2R_01, Rplus_0_l.
  apply suml_ext. intros [q b] I. destruct (H _ I) as [HJ Hr]. cbn [fst snd] in *. rewrite suml_map, suml_seq0. 
  assert (E : p_rho_weight s variable rmin q = match v_type s with incompressible_stationary => 1 | _ => v_weight s * (if variable then p_rho q else rmin) end).
  { unfold p_rho_weight. destruct (v_type s); rnum; try ring. unfold Q2R; cbn; lra. }
  unfold laplace_part, ngtb. set (W := match v_type s with incompressible_stationary => 1 | _ => v_weight s * (if variable then p_rho q else rmin) end) in *. change (p_rho_weight s variable rmin q = W) in E. rewrite E; clear E.
  assert (0 < W) by (unfold W; destruct (v_type s); try lra; apply Rmult_lt_0_compat; auto). clearbody W. rnum. rewrite Q2R_01.
  destruct (Rltb_spec 0 W) as [_|X]; [|lra]. 
  assert (S2 : sqrt (p_JxW q / W) * sqrt (p_JxW q / W) = p_JxW q / W).
  { apply sqrt_sqrt. apply Rmult_le_pos; [lra|left; apply Rinv_0_lt_compat; auto]. }
  etransitivity; [|apply (f_equal2 Rmult S2 eq_refl)]. rewrite <- sumn_scal. apply sumn_ext. intros e _. ring.
Qed.
Print Assumptions C82_poisson.
Theorem C82_mass : forall (s : vset RNum) is_projection (pts : list (ppt RNum)) i j,
  (forall q, In q pts -> 0 <= p_JxW q /\ 0 < p_nu q + v_tau_grad_div s) ->
  mass_entry (N:=RNum) sqrt s is_projection pts i j =
  p_mass (fun q => p_JxW q / match v_type s with incompressible_stationary => 1 | _ => if is_projection : bool then 1 else p_nu q + v_tau_grad_div s end) pts i j.
Proof.
  intros s proj pts i j H. unfold mass_entry, p_mass. rewrite nsum_R, suml_map. rnum. rewrite Q2R_01, Rplus_0_l.
  apply suml_ext. intros q I. destruct (H _ I) as [HJ Hr].
  assert (E : p_actual_nu s proj q = match v_type s with incompressible_stationary => 1 | _ => if proj then 1 else p_nu q + v_tau_grad_div s end).
  { unfold p_actual_nu. destruct (v_type s), proj; rnum; auto; unfold Q2R; cbn; lra. }
  unfold mass_part. set (W := match v_type s with incompressible_stationary => 1 | _ => if proj then 1 else p_nu q + v_tau_grad_div s end) in *. change (p_actual_nu s proj q = W) in E. rewrite E; clear E.
  assert (0 < W) by (unfold W; destruct (v_type s), proj; lra). clearbody W. rnum.
  assert (S2 : sqrt (p_JxW q / W) * sqrt (p_JxW q / W) = p_JxW q / W).
  { apply sqrt_sqrt. apply Rmult_le_pos; [lra|left; apply Rinv_0_lt_compat; auto]. }
  etransitivity; [|apply (f_equal2 Rmult S2 eq_refl)]. ring.
Qed.
Print Assumptions C82_mass.
(** Both are symmetric and positive semidefinite; the Laplace form vanishes exactly on the functions with vanishing gradient at all points, the mass form
    exactly on the functions vanishing at all points; constants are in the kernel of the Laplace form. *)
Theorem C82_symmetric_positive : forall dim n (w : ppt RNum -> R) (pts : list (ppt RNum)), (forall q, In q pts -> 0 < w q) ->
  let L := p_laplace dim w pts in let M := p_mass w pts in
  (forall i j, L i j = L j i /\ M i j = M j i) /\
  (forall x, 0 <= quadratic n L x /\ 0 <= quadratic n M x) /\
  (forall x, quadratic n L x = 0 <-> forall q e, In q pts -> (e < dim)%nat -> sumn n (fun i => x i * p_dpsi q i e) = 0) /\
  (forall x, quadratic n M x = 0 <-> forall q, In q pts -> sumn n (fun i => x i * p_psi q i) = 0) /\
  ((forall q e, In q pts -> (e < dim)%nat -> sumn n (fun i => p_dpsi q i e) = 0) -> forall i, sumn n (fun j => L i j) = 0).
Proof.
  intros dim n w pts Hw. cbv zeta.
  assert (QL : forall x, quadratic n (p_laplace dim w pts) x = suml pts (fun q => w q * sumn dim (fun e => sumn n (fun i => x i * p_dpsi q i e) * sumn n (fun i => x i * p_dpsi q i e)))).
  { intros x. unfold quadratic, p_laplace.
    rewrite (sumn_ext n _ (fun i => suml pts (fun q => sumn dim (fun e => w q * (x i * p_dpsi q i e * sumn n (fun j => x j * p_dpsi q j e)))))).
    2: { intros i _. rewrite (sumn_ext n _ (fun j => suml pts (fun q => sumn dim (fun e => w q * (x i * p_dpsi q i e * (x j * p_dpsi q j e)))))).
         2: { intros j _. rewrite Rmult_assoc, (Rmult_comm _ (x j)), <- Rmult_assoc, <- suml_scal. apply suml_ext. intros q _.
              rewrite <- sumn_scal, <- sumn_scal. apply sumn_ext. intros; rnum; ring. }
         rewrite <- suml_sumn. apply suml_ext. intros q _. rewrite sumn_swap. apply sumn_ext. intros e _. rewrite <- !sumn_scal. reflexivity. }
    rewrite <- suml_sumn. apply suml_ext. intros q _. rewrite sumn_swap, <- sumn_scal. apply sumn_ext. intros e _. rewrite sumn_scal, sumn_scal_r. ring. }
  assert (QM : forall x, quadratic n (p_mass w pts) x = suml pts (fun q => w q * (sumn n (fun i => x i * p_psi q i) * sumn n (fun i => x i * p_psi q i)))).
  { intros x. unfold quadratic, p_mass.
    rewrite (sumn_ext n _ (fun i => suml pts (fun q => w q * (x i * p_psi q i * sumn n (fun j => x j * p_psi q j))))).
    2: { intros i _. rewrite (sumn_ext n _ (fun j => suml pts (fun q => w q * (x i * p_psi q i * (x j * p_psi q j))))).
         2: { intros j _. rewrite Rmult_assoc, (Rmult_comm _ (x j)), <- Rmult_assoc, <- suml_scal. apply suml_ext. intros q _. rnum; ring. }
         rewrite <- suml_sumn. apply suml_ext. intros q _. rewrite <- !sumn_scal. reflexivity. }
    rewrite <- suml_sumn. apply suml_ext. intros q _. rewrite sumn_scal, sumn_scal_r. ring. }
  assert (sq : forall a : R, 0 <= a * a) by (intros; nra).
  split; [intros i j; split; unfold p_laplace, p_mass; apply suml_ext; intros q _; f_equal; [apply sumn_ext; intros; rnum; ring|rnum; ring]|].
  split.
  { intros x. rewrite QL, QM. split; apply suml_nonneg; intros q I; specialize (Hw q I); (apply Rmult_le_pos; [lra|auto]). apply sumn_nonneg. auto. }
  split.
  { intros x. rewrite QL. split.
    - intros Z q e I He. pose proof (suml_nonneg_zero _ _ (fun q I => Rmult_le_pos _ _ (Rlt_le _ _ (Hw q I)) (sumn_nonneg dim _ (fun e _ => sq (sumn n (fun i => x i * p_dpsi q i e))))) Z q I) as Z2.
      cbv beta in Z2. specialize (Hw q I). assert (Z3 : sumn dim (fun e => sumn n (fun i => x i * p_dpsi q i e) * sumn n (fun i => x i * p_dpsi q i e)) = 0) by nra.
      pose proof (sumn_nonneg_zero dim _ (fun e _ => sq (sumn n (fun i => x i * p_dpsi q i e))) Z3 e He) as Z4. cbv beta in Z4. nra.
    - intros Z. apply suml_zero. intros q I. rewrite (sumn_zero dim); [ring|]. intros e He. rewrite (Z q e I He). ring. }
  split.
  { intros x. rewrite QM. split.
    - intros Z q I. pose proof (suml_nonneg_zero _ _ (fun q I => Rmult_le_pos _ _ (Rlt_le _ _ (Hw q I)) (sq (sumn n (fun i => x i * p_psi q i)))) Z q I) as Z2.
      cbv beta in Z2. specialize (Hw q I). apply Rmult_integral in Z2. destruct Z2 as [Z2|Z2]; [exfalso; revert Hw; rewrite Z2; apply Rlt_irrefl|].
      apply Rmult_integral in Z2. destruct Z2; assumption.
    - intros Z. apply suml_zero. intros q I. rewrite (Z q I). ring. }
  intros C i. unfold p_laplace. rewrite <- suml_sumn. apply suml_zero. intros q I. rewrite sumn_scal, sumn_swap, sumn_zero; [ring|].
  intros e He. rewrite sumn_scal, (C q e I He). ring.
Qed.
Print Assumptions C82_symmetric_positive.
(** Violation: a fluid of density zero next to one with density (allowed by the assertion on the densities): the cell matrix contains the gradients of
    the cell assembled before. *)
Theorem C82_violation_zero_density : exists (s : vset RNum) (q : ppt RNum) before before',
  v_type s = incompressible /\ p_rho q = 0 /\
  pressure_entry (N:=RNum) sqrt s true 0 [(q, before)] 0 0 <> pressure_entry (N:=RNum) sqrt s true 0 [(q, before')] 0 0.
Proof.
  exists (MkVset (N:=RNum) 1 incompressible 1 1 0), (MkPpt (N:=RNum) 1 0 1 (fun _ => 1) (fun _ _ => 1)), (fun _ _ => 1), (fun _ _ => 2).
  split; [auto|]. split; [auto|]. unfold pressure_entry, laplace_part, p_rho_weight, ngtb. cbn -[Rltb Q2R]. rewrite Q2R_01.
  replace (0 * 1) with 0 by ring. destruct (Rltb_spec 0 0); lra.
Qed.
Print Assumptions C82_violation_zero_density.
Example C82_nonvacuous : exists (q : ppt RNum), 0 < p_JxW q /\ 0 < p_rho q /\ p_laplace 1 (fun q => p_JxW q) [q] 0 0 = 1 /\ p_mass (fun q => p_JxW q) [q] 0 0 = 1.
Proof. exists (MkPpt (N:=RNum) 1 1 1 (fun _ => 1) (fun _ _ => 1)). unfold p_laplace, p_mass. cbn. lra. Qed.
