(** * Property theorems C24, C25, C26: residual, Newton and Picard operators, pressure average *)
From Coq Require Import Reals List Bool Lra Lia FunctionalExtensionality.
From Verif Require Import SumR Model_Parameters Model_NSOperator.
Import ListNotations.
Open Scope R_scope.

(** ** Specification *)
Definition vplus (a b : vec) : vec := fun i => a i + b i.
Definition vscal (t : R) (a : vec) : vec := fun i => t * a i.
Definition tplus (a b : ten) : ten := fun d e => a d e + b d e.
(** the discrete convective term of a convecting field (value a, gradient ga) and a convected field (b, gb):
    (a . grad) b + beta (div a) b, tested with velocity shape function i *)
Definition convection (s : setting) (a : vec) (ga : ten) (b : vec) (gb : ten) (d : nat) : R :=
  beta s * trace (dim s) ga * b d + sumn (dim s) (fun e => a e * gb d e).
Definition convective_form (s : setting) (qs : list qpoint) (A B : vec) (i : nat) : R :=
  suml qs (fun q => JxW q * sumn (dim s) (fun d =>
    rho q * s_tau1 s * convection s (eval_value s q A) (eval_gradient s q A) (eval_value s q B) (eval_gradient s q B) d
    * phi q i d)).
(** the increment respects the homogeneous constraints *)
Definition zero_on (con : nat -> bool) (v : vec) : Prop := forall i, con i = true -> v i = 0.
(** the remainder of one linearized step *)
Definition remainder (s : setting) (qs : list qpoint) (U D : vec) (i : nat) : R :=
  if constrained_u s i then 0
  else if is_stokes_type (s_type s) then 0
  else match s_lin s with
       | coupled_implicit_newton => convective_form s qs D D i
       | coupled_implicit_picard => convective_form s qs D (vplus U D) i
       | _ => 0
       end.

(** ** Auxiliary *)
Ltac fext := repeat (apply functional_extensionality; intro).
Lemma eval_value_plus s q A B : eval_value s q (vplus A B) = vplus (eval_value s q A) (eval_value s q B).
Proof. unfold eval_value, vplus. fext. rewrite <- sumn_plus. apply sumn_ext; intros; ring. Qed.
Lemma eval_gradient_plus s q A B : eval_gradient s q (vplus A B) = tplus (eval_gradient s q A) (eval_gradient s q B).
Proof. unfold eval_gradient, vplus, tplus. fext. rewrite <- sumn_plus. apply sumn_ext; intros; ring. Qed.
Lemma eval_pressure_plus s q A B : eval_pressure s q (vplus A B) = eval_pressure s q A + eval_pressure s q B.
Proof. unfold eval_pressure, vplus. rewrite <- sumn_plus. apply sumn_ext; intros; ring. Qed.
Lemma eval_value_scal s q t A : eval_value s q (vscal t A) = vscal t (eval_value s q A).
Proof. unfold eval_value, vscal. fext. rewrite <- sumn_scal. apply sumn_ext; intros; ring. Qed.
Lemma eval_gradient_scal s q t A : eval_gradient s q (vscal t A) = (fun d e => t * eval_gradient s q A d e).
Proof. unfold eval_gradient, vscal. fext. rewrite <- sumn_scal. apply sumn_ext; intros; ring. Qed.
Lemma eval_pressure_scal s q t A : eval_pressure s q (vscal t A) = t * eval_pressure s q A.
Proof. unfold eval_pressure, vscal. rewrite <- sumn_scal. apply sumn_ext; intros; ring. Qed.
Lemma trace_plus n g k : trace n (tplus g k) = trace n g + trace n k.
Proof. unfold trace, tplus. apply sumn_plus. Qed.
Lemma trace_scal n t g : trace n (fun d e => t * g d e) = t * trace n g.
Proof. unfold trace. apply sumn_scal. Qed.
Lemma masked_zero con v : zero_on con v -> masked con v = v.
Proof. intros H. unfold masked. fext. destruct (con x) eqn:E; auto. symmetry; auto. Qed.

Lemma sum_conv n (u h : vec) (g k : ten) d :
  sumn n (fun e => vplus u h e * tplus g k d e) =
  sumn n (fun e => u e * g d e) + sumn n (fun e => u e * k d e) + sumn n (fun e => h e * g d e) + sumn n (fun e => h e * k d e).
Proof. rewrite <- !sumn_plus. apply sumn_ext; intros; unfold vplus, tplus; ring. Qed.

Definition point_remainder (s : setting) (q : qpoint) (u h : vec) (g k : ten) (d : nat) : R :=
  if is_stokes_type (s_type s) then 0
  else match s_lin s with
       | coupled_implicit_newton => rho q * s_tau1 s * convection s h k h k d
       | coupled_implicit_picard => rho q * s_tau1 s * convection s h k (vplus u h) (tplus g k) d
       | _ => 0
       end.

Lemma stress_plus s q b g k p r d e :
  stress s q b (tplus g k) (p + r) d e = stress s q b g p d e + stress s q b k r d e.
Proof.
  unfold stress. rewrite trace_plus. unfold tplus. destruct (Nat.eqb d e); [|ring]. destruct b; ring.
Qed.
Lemma stress_scal s q b t g p d e :
  stress s q b (fun d e => t * g d e) (t * p) d e = t * stress s q b g p d e.
Proof. unfold stress. rewrite trace_scal. destruct (Nat.eqb d e); [|ring]. destruct b; ring. Qed.

(** one quadrature point *)
Lemma point_expansion s q l u h g k p r :
  let '(o1, l1) := residual_point s q u g p l in
  let o2 := fst (residual_point s q (vplus u h) (tplus g k) (p + r) l1) in
  let o := vmult_point s q true l1 h k r in
  (forall d, o_value o2 d = o_value o1 d + o_value o d + point_remainder s q u h g k d) /\
  (forall d e, o_gradient o2 d e = o_gradient o1 d e + o_gradient o d e) /\
  o_pressure o2 = o_pressure o1 + o_pressure o.
Proof.
  unfold residual_point, vmult_point, point_remainder.
  destruct (is_stokes_type (s_type s)) eqn:St.
  - destruct (if need_extrapolated (s_lin s) then _ else _) as [conv l'] in |- *.
    destruct (if need_extrapolated (s_lin s) then _ else _) as [conv2 l2] in |- *.
    cbn [o_value o_gradient o_pressure fst]. split; [intros; ring|]. split; [intros; apply stress_plus|].
    rewrite trace_plus; ring.
  - unfold convection. destruct (s_lin s) eqn:L; cbn [need_extrapolated is_explicit is_newton negb fst snd o_value o_gradient o_pressure];
      (split; [intros d|split; [intros; apply stress_plus|rewrite trace_plus; ring]]).
    + rewrite trace_plus, sum_conv. unfold vplus. rewrite sumn_plus. cbn [fst snd]. ring.
    + rewrite trace_plus, sum_conv. unfold set_00; cbn [Nat.eqb andb].
      rewrite (sumn_ext (dim s) (fun e => h e * tplus g k d e) (fun e => h e * g d e + h e * k d e)) by (intros; unfold tplus; ring).
      rewrite sumn_plus. unfold vplus. ring.
    + unfold set_00; cbn [Nat.eqb andb].
      rewrite (sumn_ext (dim s) (fun e => extrapol s (old_value q e) (old_old_value q e) * tplus g k d e)
                 (fun e => extrapol s (old_value q e) (old_old_value q e) * g d e + extrapol s (old_value q e) (old_old_value q e) * k d e)) by (intros; unfold tplus; ring).
      rewrite sumn_plus. unfold vplus. ring.
    + unfold vplus. ring.
    + unfold set_00; cbn [Nat.eqb andb].
      rewrite (sumn_ext (dim s) (fun e => extrapol s (old_value q e) (old_old_value q e) * tplus g k d e)
                 (fun e => extrapol s (old_value q e) (old_old_value q e) * g d e + extrapol s (old_value q e) (old_old_value q e) * k d e)) by (intros; unfold tplus; ring).
      rewrite sumn_plus. unfold vplus. ring.
Qed.

Lemma residual_point_stored_irrelevant s q u g p l l2 : fst (residual_point s q u g p l) = fst (residual_point s q u g p l2).
Proof.
  unfold residual_point. destruct (is_stokes_type (s_type s)), (need_extrapolated (s_lin s)), (is_explicit (s_lin s)); reflexivity.
Qed.

Lemma project_mode_plus n m v w : project_mode n m (vplus v w) = vplus (project_mode n m v) (project_mode n m w).
Proof.
  destruct m as [m|]; [|reflexivity]. unfold project_mode, vplus, dot. fext.
  rewrite (sumn_ext n _ (fun i => mode_weights m i * v i + mode_weights m i * w i)) by (intros; ring). rewrite sumn_plus. ring.
Qed.
Lemma project_mode_scal n m t v : project_mode n m (vscal t v) = vscal t (project_mode n m v).
Proof.
  destruct m as [m|]; [|reflexivity]. unfold project_mode, vscal, dot. fext.
  rewrite (sumn_ext n _ (fun i => t * (mode_weights m i * v i))) by (intros; ring). rewrite sumn_scal. ring.
Qed.
Lemma average_projection_plus s m0 m1 v w :
  average_projection s m0 m1 (vplus v w) = vplus (average_projection s m0 m1 v) (average_projection s m0 m1 w).
Proof. unfold average_projection. destruct (_ && _); [|reflexivity]. rewrite !project_mode_plus. reflexivity. Qed.
Lemma average_projection_scal s m0 m1 t w :
  average_projection s m0 m1 (vscal t w) = vscal t (average_projection s m0 m1 w).
Proof. unfold average_projection. destruct (_ && _); [|reflexivity]. rewrite !project_mode_scal. reflexivity. Qed.

Lemma test_velocity_expand s q o2 o1 o r i :
  (forall d, o_value o2 d = o_value o1 d + o_value o d + r d) ->
  (forall d e, o_gradient o2 d e = o_gradient o1 d e + o_gradient o d e) ->
  test_velocity s q o2 i = test_velocity s q o1 i + test_velocity s q o i + JxW q * sumn (dim s) (fun d => r d * phi q i d).
Proof.
  intros Hv Hg. unfold test_velocity.
  rewrite (sumn_ext (dim s) (fun d => o_value o2 d * phi q i d)
    (fun d => (o_value o1 d * phi q i d + o_value o d * phi q i d) + r d * phi q i d)) by (intros; rewrite Hv; ring).
  rewrite !sumn_plus.
  rewrite (sumn_ext (dim s) (fun d => sumn (dim s) (fun e => o_gradient o2 d e * dphi q i d e))
    (fun d => sumn (dim s) (fun e => o_gradient o1 d e * dphi q i d e) + sumn (dim s) (fun e => o_gradient o d e * dphi q i d e))).
  2:{ intros d Hd. rewrite <- sumn_plus. apply sumn_ext; intros; rewrite Hg; ring. }
  rewrite sumn_plus. ring.
Qed.

(** the residual at (U+D, P+E), as a function of the one at (U,P) *)
Definition point_conv_remainder (s : setting) (q : qpoint) (U D : vec) : vec :=
  point_remainder s q (eval_value s q U) (eval_value s q D) (eval_gradient s q U) (eval_gradient s q D).

Lemma remainder_sum s qs U D i : constrained_u s i = false ->
  remainder s qs U D i = suml qs (fun q => JxW q * sumn (dim s) (fun d => point_conv_remainder s q U D d * phi q i d)).
Proof.
  intros Hc. unfold remainder, point_conv_remainder, point_remainder, convective_form. rewrite Hc.
  assert (Z : 0 = suml qs (fun q => JxW q * sumn (dim s) (fun d => 0 * phi q i d))).
  { symmetry. apply suml_zero. intros q _. rewrite sumn_zero; [ring|intros; ring]. }
  destruct (is_stokes_type (s_type s)); [exact Z|]. destruct (s_lin s); try exact Z.
  - reflexivity.
  - apply suml_ext; intros q _. f_equal. apply sumn_ext; intros. rewrite eval_value_plus, eval_gradient_plus. reflexivity.
Qed.

(** ** C24: one linearized step *)
(** For every state, increment, mesh, coefficients, formulation, scheme weights and old solutions: after the residual
    was evaluated at (U,P), the residual at (U+D,P+E) is the residual at (U,P) minus vmult(D,E), up to an explicit
    convective remainder in the velocity rows, and with no remainder in the pressure rows. *)
Theorem C24_residual_expansion :
  forall (s : setting) (m0 m1 : option mode) (pts pts2 : list (qpoint * stored)) cu cp fu fp (U P D E : vec),
    zero_on (constrained_u s) D -> zero_on (constrained_p s) E ->
    map fst pts2 = map fst pts ->
    forall ru rp pts' du dp ru2 rp2 pts2',
      residual s m0 m1 pts cu cp fu fp U P = ((ru, rp), pts') ->
      vmult s m0 m1 pts' D E = (du, dp) ->
      residual s m0 m1 pts2 cu cp fu fp (vplus U D) (vplus P E) = ((ru2, rp2), pts2') ->
      (forall i, ru2 i = ru i - du i - remainder s (map fst pts) U D i) /\
      (forall i, rp2 i = rp i - dp i).
Proof.
  intros s m0 m1 pts pts2 cu cp fu fp U P D E HD HE Hpts ru rp pts' du dp ru2 rp2 pts2' R V R2.
  unfold residual in R, R2. unfold vmult in V. inversion R; subst ru rp pts'; clear R. inversion V; subst du dp; clear V.
  inversion R2; subst ru2 rp2 pts2'; clear R2.
  rewrite !(masked_zero _ _ HD), !(masked_zero _ _ HE).
  assert (Hsum : forall f : qpoint -> point_out -> R,
    suml (map (fun ql => (fst ql, residual_point s (fst ql) (eval_value s (fst ql) (vplus U D)) (eval_gradient s (fst ql) (vplus U D)) (eval_pressure s (fst ql) (vplus P E)) (snd ql))) pts2) (fun o => f (fst o) (fst (snd o)))
    = suml pts (fun ql => f (fst ql) (fst (residual_point s (fst ql) (eval_value s (fst ql) (vplus U D)) (eval_gradient s (fst ql) (vplus U D)) (eval_pressure s (fst ql) (vplus P E))
        (snd (residual_point s (fst ql) (eval_value s (fst ql) U) (eval_gradient s (fst ql) U) (eval_pressure s (fst ql) P) (snd ql))))))).
  { intros f. clear HD HE. revert pts Hpts. induction pts2 as [|a l IH]; intros [|b l2] H; cbn in H; try discriminate; [reflexivity|].
    inversion H as [[H1 H2]]. cbn [map suml fst snd]. rewrite (IH l2 H2), H1. f_equal. f_equal. apply residual_point_stored_irrelevant. }
  split.
  - intros i. cbv beta. rewrite (Hsum (fun q o => test_velocity s q o i)). rewrite !map_map. rewrite !suml_map. cbn [fst snd].
    unfold remainder. destruct (constrained_u s i) eqn:C.
    + rewrite (HD i C). ring.
    + fold (remainder s (map fst pts) U D i). 
      change (- (cu i + suml pts (fun ql => test_velocity s (fst ql) (fst (residual_point s (fst ql) (eval_value s (fst ql) (vplus U D)) (eval_gradient s (fst ql) (vplus U D)) (eval_pressure s (fst ql) (vplus P E))
        (snd (residual_point s (fst ql) (eval_value s (fst ql) U) (eval_gradient s (fst ql) U) (eval_pressure s (fst ql) P) (snd ql))))) i)) + fu i
       = - (cu i + suml pts (fun ql => test_velocity s (fst ql) (fst (residual_point s (fst ql) (eval_value s (fst ql) U) (eval_gradient s (fst ql) U) (eval_pressure s (fst ql) P) (snd ql))) i)) + fu i
         - suml pts (fun ql => test_velocity s (fst ql) (vmult_point s (fst ql) true (snd (residual_point s (fst ql) (eval_value s (fst ql) U) (eval_gradient s (fst ql) U) (eval_pressure s (fst ql) P) (snd ql))) (eval_value s (fst ql) D) (eval_gradient s (fst ql) D) (eval_pressure s (fst ql) E)) i)
         - (if is_stokes_type (s_type s) then 0 else match s_lin s with
              | coupled_implicit_newton => convective_form s (map fst pts) D D i
              | coupled_implicit_picard => convective_form s (map fst pts) D (vplus U D) i
              | _ => 0 end)).
      pose proof (remainder_sum s (map fst pts) U D i C) as Q. unfold remainder in Q. rewrite C in Q. rewrite Q. rewrite suml_map.
      rewrite (suml_ext pts (fun ql => test_velocity s (fst ql) (fst (residual_point s (fst ql) (eval_value s (fst ql) (vplus U D)) (eval_gradient s (fst ql) (vplus U D)) (eval_pressure s (fst ql) (vplus P E))
        (snd (residual_point s (fst ql) (eval_value s (fst ql) U) (eval_gradient s (fst ql) U) (eval_pressure s (fst ql) P) (snd ql))))) i)
        (fun ql => test_velocity s (fst ql) (fst (residual_point s (fst ql) (eval_value s (fst ql) U) (eval_gradient s (fst ql) U) (eval_pressure s (fst ql) P) (snd ql))) i
          + test_velocity s (fst ql) (vmult_point s (fst ql) true (snd (residual_point s (fst ql) (eval_value s (fst ql) U) (eval_gradient s (fst ql) U) (eval_pressure s (fst ql) P) (snd ql))) (eval_value s (fst ql) D) (eval_gradient s (fst ql) D) (eval_pressure s (fst ql) E)) i
          + JxW (fst ql) * sumn (dim s) (fun d => point_conv_remainder s (fst ql) U D d * phi (fst ql) i d))).
      * rewrite !suml_plus. ring.
      * intros [q l] _. cbn [fst snd]. rewrite eval_value_plus, eval_gradient_plus, eval_pressure_plus.
        pose proof (point_expansion s q l (eval_value s q U) (eval_value s q D) (eval_gradient s q U) (eval_gradient s q D) (eval_pressure s q P) (eval_pressure s q E)) as PE.
        destruct (residual_point s q (eval_value s q U) (eval_gradient s q U) (eval_pressure s q P) l) as [o1 l1] eqn:E1.
        cbn [fst snd]. destruct PE as (A & B & _). apply test_velocity_expand; assumption.
  - intros i. cbv beta.
    match goal with |- average_projection _ _ _ ?a _ = average_projection _ _ _ ?b _ - average_projection _ _ _ ?c _ =>
      assert (Hrp : a = vplus b (vscal (-1) c)) end.
    { apply functional_extensionality; intro j. match goal with |- _ = vplus ?b ?c j => change (vplus b c j) with (b j + c j) end. unfold vscal. cbv beta. rewrite (Hsum (fun q o => test_pressure s q o j)). rewrite !map_map, !suml_map. cbn [fst snd].
      destruct (constrained_p s j) eqn:C; [rewrite (HE j C); ring|].
      rewrite (suml_ext pts (fun ql => test_pressure s (fst ql) (fst (residual_point s (fst ql) (eval_value s (fst ql) (vplus U D)) (eval_gradient s (fst ql) (vplus U D)) (eval_pressure s (fst ql) (vplus P E))
        (snd (residual_point s (fst ql) (eval_value s (fst ql) U) (eval_gradient s (fst ql) U) (eval_pressure s (fst ql) P) (snd ql))))) j)
        (fun ql => test_pressure s (fst ql) (fst (residual_point s (fst ql) (eval_value s (fst ql) U) (eval_gradient s (fst ql) U) (eval_pressure s (fst ql) P) (snd ql))) j
          + test_pressure s (fst ql) (vmult_point s (fst ql) true (snd (residual_point s (fst ql) (eval_value s (fst ql) U) (eval_gradient s (fst ql) U) (eval_pressure s (fst ql) P) (snd ql))) (eval_value s (fst ql) D) (eval_gradient s (fst ql) D) (eval_pressure s (fst ql) E)) j)).
      - rewrite !suml_plus. ring.
      - intros [q l] _. cbn [fst snd]. rewrite eval_value_plus, eval_gradient_plus, eval_pressure_plus.
        pose proof (point_expansion s q l (eval_value s q U) (eval_value s q D) (eval_gradient s q U) (eval_gradient s q D) (eval_pressure s q P) (eval_pressure s q E)) as PE.
        destruct (residual_point s q (eval_value s q U) (eval_gradient s q U) (eval_pressure s q P) l) as [o1 l1] eqn:E1.
        cbn [fst snd]. destruct PE as (_ & _ & A). unfold test_pressure. destruct (is_proj (s_lin s)); [ring|]. rewrite A. ring. }
    rewrite Hrp, average_projection_plus, average_projection_scal. unfold vplus, vscal. ring.
Qed.

(** ** C25: the linearized operators are linear *)
Lemma vmult_point_plus s q b l u h g k p r :
  let o := vmult_point s q b l (vplus u h) (tplus g k) (p + r) in
  let o1 := vmult_point s q b l u g p in let o2 := vmult_point s q b l h k r in
  (forall d, o_value o d = o_value o1 d + o_value o2 d) /\ (forall d e, o_gradient o d e = o_gradient o1 d e + o_gradient o2 d e)
  /\ o_pressure o = o_pressure o1 + o_pressure o2.
Proof.
  unfold vmult_point. cbn [o_value o_gradient o_pressure]. split; [|split; [intros; apply stress_plus|rewrite trace_plus; ring]].
  intros d. destruct (is_stokes_type (s_type s)); [ring|]. destruct (is_newton (s_lin s)).
  - rewrite trace_plus.
    rewrite (sumn_ext (dim s) (fun e => fst l e * tplus g k d e + vplus u h e * snd l d e)
      (fun e => (fst l e * g d e + u e * snd l d e) + (fst l e * k d e + h e * snd l d e))) by (intros; unfold tplus, vplus; ring).
    rewrite (sumn_plus (dim s) (fun e => fst l e * g d e + u e * snd l d e)). unfold vplus. ring.
  - destruct (negb (is_explicit (s_lin s))); [|unfold vplus; ring].
    rewrite (sumn_ext (dim s) (fun e => fst l e * tplus g k d e) (fun e => fst l e * g d e + fst l e * k d e)) by (intros; unfold tplus; ring).
    rewrite sumn_plus. unfold vplus. ring.
Qed.
Lemma vmult_point_scal s q b l t u g p :
  let o := vmult_point s q b l (vscal t u) (fun d e => t * g d e) (t * p) in
  let o1 := vmult_point s q b l u g p in
  (forall d, o_value o d = t * o_value o1 d) /\ (forall d e, o_gradient o d e = t * o_gradient o1 d e) /\ o_pressure o = t * o_pressure o1.
Proof.
  unfold vmult_point. cbn [o_value o_gradient o_pressure]. split; [|split; [intros; apply stress_scal|rewrite trace_scal; ring]].
  intros d. destruct (is_stokes_type (s_type s)); [ring|]. destruct (is_newton (s_lin s)).
  - rewrite trace_scal.
    rewrite (sumn_ext (dim s) (fun e => fst l e * (t * g d e) + vscal t u e * snd l d e)
      (fun e => t * (fst l e * g d e + u e * snd l d e))) by (intros; unfold vscal; ring).
    rewrite sumn_scal. unfold vscal. ring.
  - destruct (negb (is_explicit (s_lin s))); [|unfold vscal; ring].
    rewrite (sumn_ext (dim s) (fun e => fst l e * (t * g d e)) (fun e => t * (fst l e * g d e))) by (intros; ring).
    rewrite sumn_scal. unfold vscal. ring.
Qed.
Lemma test_velocity_plus s q o o1 o2 i :
  (forall d, o_value o d = o_value o1 d + o_value o2 d) -> (forall d e, o_gradient o d e = o_gradient o1 d e + o_gradient o2 d e) ->
  test_velocity s q o i = test_velocity s q o1 i + test_velocity s q o2 i.
Proof.
  intros A B. rewrite (test_velocity_expand s q o o1 o2 (fun _ => 0) i); [|intros; rewrite A; ring|assumption].
  rewrite sumn_zero; [ring|intros; ring].
Qed.
Lemma test_velocity_scal s q o o1 t i :
  (forall d, o_value o d = t * o_value o1 d) -> (forall d e, o_gradient o d e = t * o_gradient o1 d e) ->
  test_velocity s q o i = t * test_velocity s q o1 i.
Proof.
  intros A B. unfold test_velocity.
  rewrite (sumn_ext (dim s) (fun d => o_value o d * phi q i d) (fun d => t * (o_value o1 d * phi q i d))) by (intros; rewrite A; ring).
  rewrite sumn_scal.
  rewrite (sumn_ext (dim s) (fun d => sumn (dim s) (fun e => o_gradient o d e * dphi q i d e))
    (fun d => t * sumn (dim s) (fun e => o_gradient o1 d e * dphi q i d e))).
  2:{ intros d Hd. rewrite <- sumn_scal. apply sumn_ext; intros; rewrite B; ring. }
  rewrite sumn_scal. ring.
Qed.
Lemma masked_plus con a b : masked con (vplus a b) = vplus (masked con a) (masked con b).
Proof. unfold masked, vplus. fext. destruct (con x); ring. Qed.
Lemma masked_scal con t b : masked con (vscal t b) = vscal t (masked con b).
Proof. unfold masked, vscal. fext. destruct (con x); ring. Qed.

Theorem C25_vmult_linear :
  forall (s : setting) (m0 m1 : option mode) (pts : list (qpoint * stored)) (a b : R) (D1 E1 D2 E2 : vec),
    let combined := vmult s m0 m1 pts (vplus (vscal a D1) (vscal b D2)) (vplus (vscal a E1) (vscal b E2)) in
    let v1 := vmult s m0 m1 pts D1 E1 in let v2 := vmult s m0 m1 pts D2 E2 in
    (forall i, fst combined i = a * fst v1 i + b * fst v2 i) /\
    (forall i, snd combined i = a * snd v1 i + b * snd v2 i).
Proof.
  intros s m0 m1 pts.
  assert (Plus : forall D1 E1 D2 E2, vmult s m0 m1 pts (vplus D1 D2) (vplus E1 E2)
     = (vplus (fst (vmult s m0 m1 pts D1 E1)) (fst (vmult s m0 m1 pts D2 E2)), vplus (snd (vmult s m0 m1 pts D1 E1)) (snd (vmult s m0 m1 pts D2 E2)))).
  { intros. unfold vmult. cbn [fst snd]. rewrite !masked_plus. f_equal.
    - apply functional_extensionality; intro x.
      match goal with |- _ = vplus ?b ?c x => change (vplus b c x) with (b x + c x) end. cbv beta.
      destruct (constrained_u s x); [reflexivity|]. rewrite !suml_map. cbn [fst snd].
      rewrite <- suml_plus. apply suml_ext; intros [q l] _. cbn [fst snd]. rewrite eval_value_plus, eval_gradient_plus, eval_pressure_plus.
      match goal with |- context [vmult_point s q true l (vplus ?u ?h) (tplus ?g ?k) (?p + ?r)] =>
        destruct (vmult_point_plus s q true l u h g k p r) as (A & B & C) end.
      apply test_velocity_plus; assumption.
    - rewrite <- average_projection_plus. f_equal. apply functional_extensionality; intro x.
      match goal with |- _ = vplus ?b ?c x => change (vplus b c x) with (b x + c x) end. cbv beta.
      destruct (constrained_p s x); [unfold vplus; ring|]. rewrite !suml_map. cbn [fst snd].
      rewrite <- suml_plus. apply suml_ext; intros [q l] _. cbn [fst snd]. rewrite eval_value_plus, eval_gradient_plus, eval_pressure_plus.
      match goal with |- context [vmult_point s q true l (vplus ?u ?h) (tplus ?g ?k) (?p + ?r)] =>
        destruct (vmult_point_plus s q true l u h g k p r) as (A & B & C) end.
      unfold test_pressure. rewrite C. destruct (is_proj (s_lin s)); ring. }
  assert (Scal : forall t D E, vmult s m0 m1 pts (vscal t D) (vscal t E)
     = (vscal t (fst (vmult s m0 m1 pts D E)), vscal t (snd (vmult s m0 m1 pts D E)))).
  { intros. unfold vmult. cbn [fst snd]. rewrite !masked_scal. f_equal.
    - apply functional_extensionality; intro x.
      match goal with |- _ = vscal ?b ?c x => change (vscal b c x) with (b * c x) end. cbv beta.
      destruct (constrained_u s x); [reflexivity|]. rewrite !suml_map. cbn [fst snd].
      rewrite <- suml_scal. apply suml_ext; intros [q l] _. cbn [fst snd]. rewrite eval_value_scal, eval_gradient_scal, eval_pressure_scal.
      match goal with |- context [vmult_point s q true l (vscal t ?u) (fun d e => t * ?g d e) (t * ?r)] =>
        destruct (vmult_point_scal s q true l t u g r) as (A & B & C) end.
      apply test_velocity_scal; assumption.
    - rewrite <- average_projection_scal. f_equal. apply functional_extensionality; intro x.
      match goal with |- _ = vscal ?b ?c x => change (vscal b c x) with (b * c x) end. cbv beta.
      destruct (constrained_p s x); [unfold vscal; ring|]. rewrite !suml_map. cbn [fst snd].
      rewrite <- suml_scal. apply suml_ext; intros [q l] _. cbn [fst snd]. rewrite eval_value_scal, eval_gradient_scal, eval_pressure_scal.
      match goal with |- context [vmult_point s q true l (vscal t ?u) (fun d e => t * ?g d e) (t * ?r)] =>
        destruct (vmult_point_scal s q true l t u g r) as (A & B & C) end.
      unfold test_pressure. rewrite C. destruct (is_proj (s_lin s)); ring. }
  intros a b D1 E1 D2 E2 combined v1 v2. unfold combined. rewrite Plus, !Scal. unfold v1, v2, vplus, vscal; cbn [fst snd]. auto.
Qed.
Print Assumptions C25_vmult_linear.
Theorem C25_velocity_vmult_linear :
  forall (s : setting) (pts : list (qpoint * stored)) (a b : R) (D1 D2 : vec) (i : nat),
    velocity_vmult s pts (vplus (vscal a D1) (vscal b D2)) i = a * velocity_vmult s pts D1 i + b * velocity_vmult s pts D2 i.
Proof.
  intros s pts a b D1 D2 i. unfold velocity_vmult. rewrite masked_plus, !masked_scal.
  destruct (constrained_u s i); [reflexivity|]. rewrite <- !suml_scal, <- suml_plus. apply suml_ext; intros [q l] _. cbn [fst snd].
  rewrite eval_value_plus, eval_gradient_plus, !eval_value_scal, !eval_gradient_scal.
  replace 0 with (a * 0 + b * 0) at 1 by ring.
  match goal with |- context [vmult_point s q false l (vplus ?u ?h) (tplus ?g ?k) (?p + ?r)] =>
        destruct (vmult_point_plus s q false l u h g k p r) as (A & B & C) end.
  rewrite (test_velocity_plus s q _ _ _ i A B). f_equal.
  - match goal with |- context [vmult_point s q false l (vscal a ?u) (fun d e => a * ?g d e) (a * ?r)] =>
        destruct (vmult_point_scal s q false l a u g r) as (A1 & B1 & C1) end.
    apply test_velocity_scal; assumption.
  - match goal with |- context [vmult_point s q false l (vscal b ?u) (fun d e => b * ?g d e) (b * ?r)] =>
        destruct (vmult_point_scal s q false l b u g r) as (A1 & B1 & C1) end.
    apply test_velocity_scal; assumption.
Qed.
Print Assumptions C25_velocity_vmult_linear.

(** Stokes, semi-implicit, explicit and projection linearizations: the residual is affine and one solve is exact *)
Theorem C25_affine_steps_are_exact :
  forall (s : setting) (m0 m1 : option mode) (pts pts2 : list (qpoint * stored)) cu cp fu fp (U P D E : vec),
    s_type s = stokes \/ s_lin s = coupled_velocity_semi_implicit \/ s_lin s = coupled_velocity_explicit \/ s_lin s = projection ->
    zero_on (constrained_u s) D -> zero_on (constrained_p s) E -> map fst pts2 = map fst pts ->
    forall ru rp pts' du dp ru2 rp2 pts2',
      residual s m0 m1 pts cu cp fu fp U P = ((ru, rp), pts') ->
      vmult s m0 m1 pts' D E = (du, dp) ->
      residual s m0 m1 pts2 cu cp fu fp (vplus U D) (vplus P E) = ((ru2, rp2), pts2') ->
      (forall i, du i = ru i) -> (forall i, dp i = rp i) ->
      (forall i, ru2 i = 0) /\ (forall i, rp2 i = 0).
Proof.
  intros s m0 m1 pts pts2 cu cp fu fp U P D E Hk HD HE Hp ru rp pts' du dp ru2 rp2 pts2' R V R2 Su Sp.
  destruct (C24_residual_expansion s m0 m1 pts pts2 cu cp fu fp U P D E HD HE Hp _ _ _ _ _ _ _ _ R V R2) as [A B].
  split; intros i; [rewrite A, Su|rewrite B, Sp; ring].
  assert (remainder s (map fst pts) U D i = 0) as ->; [|ring].
  unfold remainder. destruct (constrained_u s i); [reflexivity|]. destruct Hk as [H|[H|[H|H]]]; rewrite H; cbn; try reflexivity;
    destruct (is_stokes_type (s_type s)); reflexivity.
Qed.
Print Assumptions C25_affine_steps_are_exact.

(** ** C24, consequences: the Newton operator is the derivative of the residual *)
Lemma convection_scal s t h k d :
  convection s (vscal t h) (fun a b => t * k a b) (vscal t h) (fun a b => t * k a b) d = t * t * convection s h k h k d.
Proof.
  unfold convection. rewrite trace_scal. unfold vscal.
  rewrite (sumn_ext (dim s) _ (fun e => t * t * (h e * k d e))) by (intros; ring). rewrite sumn_scal. ring.
Qed.
Lemma convective_form_scal s qs t D i : convective_form s qs (vscal t D) (vscal t D) i = t * t * convective_form s qs D D i.
Proof.
  unfold convective_form. rewrite <- suml_scal. apply suml_ext; intros q _. rewrite eval_value_scal, eval_gradient_scal.
  rewrite (sumn_ext (dim s) _ (fun d => t * t * (rho q * s_tau1 s * convection s (eval_value s q D) (eval_gradient s q D) (eval_value s q D) (eval_gradient s q D) d * phi q i d))).
  - rewrite sumn_scal. ring.
  - intros d _. rewrite convection_scal. ring.
Qed.
Lemma derivative_of_quadratic (f : R -> R) (c l r : R) : (forall h, f h = c - h * l - h * h * r) -> derivable_pt_lim f 0 (- l).
Proof.
  intros H eps Heps.
  assert (Hd : 0 < eps / (Rabs r + 1)). { apply Rdiv_lt_0_compat; [lra|]. pose proof (Rabs_pos r); lra. }
  exists (mkposreal _ Hd). intros h Hh Hlt. cbn in Hlt. rewrite Rplus_0_l, !H.
  replace ((c - h * l - h * h * r - (c - 0 * l - 0 * 0 * r)) / h - - l) with (- (h * r)) by (field; auto).
  rewrite Rabs_Ropp, Rabs_mult. pose proof (Rabs_pos r). pose proof (Rabs_pos h).
  apply Rle_lt_trans with (Rabs h * (Rabs r + 1)); [nra|].
  apply Rlt_le_trans with (eps / (Rabs r + 1) * (Rabs r + 1)); [apply Rmult_lt_compat_r; lra|]. apply Req_le. field. lra.
Qed.

Theorem C24_newton_operator_is_the_derivative :
  forall (s : setting) (m0 m1 : option mode) (pts : list (qpoint * stored)) cu cp fu fp (U P D E : vec) (i : nat),
    s_lin s <> coupled_implicit_picard \/ s_type s = stokes ->
    zero_on (constrained_u s) D -> zero_on (constrained_p s) E ->
    let r h := residual s m0 m1 pts cu cp fu fp (vplus U (vscal h D)) (vplus P (vscal h E)) in
    let v := vmult s m0 m1 (snd (residual s m0 m1 pts cu cp fu fp U P)) D E in
    derivable_pt_lim (fun h => fst (fst (r h)) i) 0 (- fst v i) /\
    derivable_pt_lim (fun h => snd (fst (r h)) i) 0 (- snd v i).
Proof.
  intros s m0 m1 pts cu cp fu fp U P D E i Hl HD HE r v.
  pose (rem := if constrained_u s i then 0 else if is_stokes_type (s_type s) then 0 else match s_lin s with coupled_implicit_newton => convective_form s (map fst pts) D D i | _ => 0 end).
  assert (X : forall h, fst (fst (r h)) i = fst (fst (residual s m0 m1 pts cu cp fu fp U P)) i - h * fst v i - h * h * rem
      /\ snd (fst (r h)) i = snd (fst (residual s m0 m1 pts cu cp fu fp U P)) i - h * snd v i).
  { intros h. unfold r.
    destruct (residual s m0 m1 pts cu cp fu fp (vplus U (vscal h D)) (vplus P (vscal h E))) as [[ru2 rp2] pts2'] eqn:R2.
    destruct (residual s m0 m1 pts cu cp fu fp U P) as [[ru rp] pts'] eqn:R1.
    destruct (vmult s m0 m1 pts' (vscal h D) (vscal h E)) as [du dp] eqn:V.
    assert (HD' : zero_on (constrained_u s) (vscal h D)) by (intros j Hj; unfold vscal; rewrite (HD j Hj); ring).
    assert (HE' : zero_on (constrained_p s) (vscal h E)) by (intros j Hj; unfold vscal; rewrite (HE j Hj); ring).
    destruct (C24_residual_expansion s m0 m1 pts pts cu cp fu fp U P _ _ HD' HE' eq_refl _ _ _ _ _ _ _ _ R1 V R2) as [A B].
    destruct (C25_vmult_linear s m0 m1 pts' h 0 D E D E) as [L1 L2].
    replace (vplus (vscal h D) (vscal 0 D)) with (vscal h D) in * by (unfold vplus, vscal; fext; ring).
    replace (vplus (vscal h E) (vscal 0 E)) with (vscal h E) in * by (unfold vplus, vscal; fext; ring).
    rewrite V in L1, L2. cbn [fst snd] in *. subst v. split.
    - rewrite A, L1.
      assert (remainder s (map fst pts) U (vscal h D) i = h * h * rem) as ->; [|ring].
      unfold remainder, rem. destruct (constrained_u s i); [ring|]. destruct (is_stokes_type (s_type s)) eqn:St; [ring|].
      destruct (s_lin s) eqn:L; try ring; [apply convective_form_scal|]. destruct Hl as [Hl|Hl]; [congruence|rewrite Hl in St; discriminate].
    - rewrite B, L2. ring. }
  split; [apply derivative_of_quadratic with (c := fst (fst (residual s m0 m1 pts cu cp fu fp U P)) i) (r := rem)
         |apply derivative_of_quadratic with (c := snd (fst (residual s m0 m1 pts cu cp fu fp U P)) i) (r := 0)]; intros h.
  - apply X.
  - destruct (X h) as [_ ->]. ring.
Qed.
Print Assumptions C24_residual_expansion.
Print Assumptions C24_newton_operator_is_the_derivative.

(** ** C26: pressure average projection *)
(** weighted mean of [v] over the dofs of one constant mode (continuous part, or piecewise constant part) *)
Definition weighted_mean (n : nat) (pres_mass : vec) (flag : nat -> bool) (v : vec) : R :=
  sumn n (fun i => if flag i then pres_mass i * v i else 0).
(** total weight of the unconstrained dofs of a mode *)
Definition mode_mass (n : nat) (pres_mass : vec) (flag con : nat -> bool) : R :=
  sumn n (fun i => if flag i then if con i then 0 else pres_mass i else 0).
(** [flagged = Some f]: the mode exists, for the dofs selected by f *)
Definition the_mode (n : nat) (pres_mass : vec) (con : nat -> bool) (flagged : option (nat -> bool)) : option mode :=
  option_map (fun f => build_mode n pres_mass f con) flagged.
Definition active (flagged : option (nat -> bool)) (f : nat -> bool) := flagged = Some f.
Definition enabled (s : setting) : Prop := s_lin s <> projection /\ s_type s <> incompressible_stationary.

Lemma dot_build_weights n pm f con v : dot n (mode_weights (build_mode n pm f con)) v = weighted_mean n pm f v.
Proof. unfold dot, build_mode, weighted_mean; cbn. apply sumn_ext; intros. destruct (f i); ring. Qed.
Lemma dot_build_mode n pm f con : dot n (mode_vector (build_mode n pm f con)) (mode_weights (build_mode n pm f con)) = mode_mass n pm f con.
Proof. unfold dot, build_mode, mode_mass; cbn. apply sumn_ext; intros. destruct (con i), (f i); ring. Qed.
Lemma mode_inverse_build n pm f con : mode_inverse (build_mode n pm f con) = 1 / mode_mass n pm f con.
Proof. rewrite <- (dot_build_mode n pm f con). reflexivity. Qed.
Lemma project_built n pm f con v i :
  project_mode n (Some (build_mode n pm f con)) v i
  = v i - weighted_mean n pm f v / mode_mass n pm f con * (if con i then 0 else if f i then 1 else 0).
Proof.
  unfold project_mode. rewrite dot_build_weights, mode_inverse_build. unfold build_mode; cbn [mode_vector].
  unfold Rdiv. ring.
Qed.
Lemma mean_after_own n pm f con v : mode_mass n pm f con <> 0 ->
  weighted_mean n pm f (project_mode n (Some (build_mode n pm f con)) v) = 0.
Proof.
  intros H. transitivity (weighted_mean n pm f v - weighted_mean n pm f v / mode_mass n pm f con * mode_mass n pm f con); [|field; assumption].
  set (c := weighted_mean n pm f v / mode_mass n pm f con). unfold weighted_mean at 1 2, mode_mass at 1. rewrite <- sumn_scal, <- sumn_minus.
  apply sumn_ext; intros j _. rewrite project_built. fold c. destruct (f j), (con j); ring.
Qed.
Lemma mean_after_other n pm f g con v : (forall i, f i && g i = false) ->
  weighted_mean n pm f (project_mode n (Some (build_mode n pm g con)) v) = weighted_mean n pm f v.
Proof.
  intros H. unfold weighted_mean. apply sumn_ext; intros j _. rewrite project_built. specialize (H j).
  destruct (f j), (g j); try discriminate; destruct (con j); ring.
Qed.
Lemma project_fixed n pm f con v : weighted_mean n pm f v = 0 -> project_mode n (Some (build_mode n pm f con)) v = v.
Proof. intros H. fext. rewrite project_built, H. unfold Rdiv; ring. Qed.
Lemma enabled_true s : enabled s -> negb (is_proj (s_lin s)) && negb (is_stationary_type (s_type s)) = true.
Proof. intros [A B]. destruct (s_lin s), (s_type s); cbn; congruence. Qed.

(** [f0], [f1] (if present) are disjoint sets of dofs (continuous part and piecewise constants of the
    augmented Taylor-Hood element) with non-vanishing mass *)
Theorem C26_projection :
  forall (s : setting) (pres_mass : vec) (c0 c1 : option (nat -> bool)),
    enabled s ->
    (forall f g, c0 = Some f -> c1 = Some g -> forall i, f i && g i = false) ->
    (forall f, c0 = Some f \/ c1 = Some f -> mode_mass (n_p s) pres_mass f (constrained_p s) <> 0) ->
    let p := average_projection s (the_mode (n_p s) pres_mass (constrained_p s) c0) (the_mode (n_p s) pres_mass (constrained_p s) c1) in
    (* zero weighted means *)
    (forall v f, c0 = Some f \/ c1 = Some f -> weighted_mean (n_p s) pres_mass f (p v) = 0) /\
    (* vectors with zero means, and only these, are unchanged *)
    (forall v, (forall i, p v i = v i) <-> forall f, c0 = Some f \/ c1 = Some f -> weighted_mean (n_p s) pres_mass f v = 0) /\
    (* idempotent, linear *)
    (forall v i, p (p v) i = p v i) /\
    (forall a b v w i, p (vplus (vscal a v) (vscal b w)) i = a * p v i + b * p w i) /\
    (* constrained entries, and entries in no mode, are not touched *)
    (forall v i, constrained_p s i = true \/ (forall f, c0 = Some f \/ c1 = Some f -> f i = false) -> p v i = v i).
Proof.
  intros s pm c0 c1 He Hdis Hm p.
  assert (Z : forall v f, c0 = Some f \/ c1 = Some f -> weighted_mean (n_p s) pm f (p v) = 0).
  { intros v f Hf. unfold p, average_projection. rewrite (enabled_true s He). destruct c1 as [g|] eqn:E1.
    - cbn [the_mode option_map]. destruct Hf as [Hf|Hf].
      + subst c0. cbn [the_mode option_map]. rewrite mean_after_other by (intros; eapply Hdis; reflexivity). apply mean_after_own; auto.
      + inversion Hf; subst g. apply mean_after_own; auto.
    - destruct Hf as [Hf|Hf]; [|discriminate]. subst c0. cbn [the_mode option_map project_mode]. apply mean_after_own; auto. }
  assert (F : forall v, (forall f, c0 = Some f \/ c1 = Some f -> weighted_mean (n_p s) pm f v = 0) -> p v = v).
  { intros v H. unfold p, average_projection. rewrite (enabled_true s He).
    assert (project_mode (n_p s) (the_mode (n_p s) pm (constrained_p s) c0) v = v) as ->.
    { destruct c0 as [f|]; [|reflexivity]. cbn [the_mode option_map]. apply project_fixed; auto. }
    destruct c1 as [f|]; [|reflexivity]. cbn [the_mode option_map]. apply project_fixed; auto. }
  split; [exact Z|]. split; [|split; [|split]].
  - intros v. split.
    + intros H f Hf. rewrite <- (Z v f Hf). unfold weighted_mean. apply sumn_ext; intros j _. rewrite H. reflexivity.
    + intros H i. rewrite (F v H). reflexivity.
  - intros v i. rewrite (F (p v)); auto.
  - intros a b v w i. unfold p. rewrite average_projection_plus, !average_projection_scal. reflexivity.
  - intros v i H. unfold p, average_projection. rewrite (enabled_true s He).
    assert (K : forall c u, c = c0 \/ c = c1 -> project_mode (n_p s) (the_mode (n_p s) pm (constrained_p s) c) u i = u i).
    { intros [f|] u Hc; [|reflexivity]. cbn [the_mode option_map]. rewrite project_built.
      destruct (constrained_p s i) eqn:C; [ring|]. destruct H as [H|H]; [discriminate|]. rewrite (H f); [ring|]. destruct Hc; auto. }
    rewrite !K; auto.
Qed.
Print Assumptions C26_projection.

Theorem C26_disabled :
  forall s m0 m1, ~ enabled s -> forall v i, average_projection s m0 m1 v i = v i.
Proof.
  intros s m0 m1 H v i. unfold average_projection. destruct (negb (is_proj (s_lin s)) && negb (is_stationary_type (s_type s))) eqn:E; [|reflexivity].
  exfalso. apply H. split; intros X; rewrite X in E; cbn in E; [discriminate|]. rewrite andb_false_r in E. discriminate.
Qed.
(** conversely, if it is enabled and the average is to be fixed, every vector of nonzero mean is changed *)
Corollary C26_enabled_changes :
  forall (s : setting) (pm : vec) (f : nat -> bool), enabled s -> mode_mass (n_p s) pm f (constrained_p s) <> 0 ->
    forall v, weighted_mean (n_p s) pm f v <> 0 ->
      exists i, average_projection s (Some (build_mode (n_p s) pm f (constrained_p s))) None v i <> v i.
Proof.
  intros s pm f He Hm v Hv.
  unfold average_projection. rewrite (enabled_true s He). cbn [project_mode].
  assert (X : exists i, (if f i then if constrained_p s i then 0 else pm i else 0) <> 0).
  { apply Classical_Prop.NNPP. intros H. apply Hm. unfold mode_mass. apply sumn_zero. intros i _.
    apply Classical_Prop.NNPP. intros H2. apply H. exists i. exact H2. }
  destruct X as [i Hi]. exists i. pose proof (project_built (n_p s) pm f (constrained_p s) v i) as P. unfold project_mode in P. rewrite P. clear P.
  destruct (f i); [|congruence]. destruct (constrained_p s i); [congruence|]. intros E. apply Hv.
  assert (Q : weighted_mean (n_p s) pm f v / mode_mass (n_p s) pm f (constrained_p s) = 0) by lra.
  unfold Rdiv in Q. apply Rmult_integral in Q as [Q|Q]; [exact Q|]. exfalso. revert Q. apply Rinv_neq_0_compat. exact Hm.
Qed.
Print Assumptions C26_enabled_changes.

(** ** C55: the residual is the documented weak form *)
(** spec: with eps(u) the symmetric gradient written out, for a velocity test function (v, gv) and a pressure test function q:
      rho (w u + w_old u_old + w_oo u_oo + tau1 ((a.grad) b + beta div(a) b)) . v - damping u . v
      + 2 mu tau1 eps(u) : eps(v) + (tau_grad_div div u - p) div v      and     - q div u *)
Definition eps_sym (g : ten) : ten := fun d e => / 2 * (g d e + g e d).
Definition contract (n : nat) (a b : ten) : R := sumn n (fun d => sumn n (fun e => a d e * b d e)).
Definition stress_form (s : setting) (q : qpoint) (g : ten) (p : R) (gv : ten) : R :=
  2 * (mu q * s_tau1 s) * contract (dim s) (eps_sym g) (eps_sym gv) + (tau_grad_div s * trace (dim s) g - p) * trace (dim s) gv.
(** time derivative and convection of the residual, per scheme *)
Definition inertia (s : setting) (q : qpoint) (u : vec) (g : ten) (d : nat) : R :=
  let a : vec := fun d => old_value q d * extrapol_old s + old_old_value q d * extrapol_old_old s in
  let ga : ten := fun d e => old_gradient q d e * extrapol_old s + old_old_gradient q d e * extrapol_old_old s in
  (match s_type s with
   | incompressible => s_weight s * u d + s_weight_old s * old_value q d + s_weight_old_old s * old_old_value q d
   | _ => 0 end)
  + s_tau1 s * (match s_lin s with
      | coupled_implicit_newton | coupled_implicit_picard => convection s u g u g d
      | coupled_velocity_semi_implicit | projection => convection s a ga u g d
      | coupled_velocity_explicit => convection s a ga a ga d end).

Lemma contract_sym n a b : contract n (eps_sym a) (eps_sym b) = contract n (eps_sym a) b.
Proof.
  unfold contract.
  assert (X : sumn n (fun d => sumn n (fun e => eps_sym a d e * b e d)) = sumn n (fun d => sumn n (fun e => eps_sym a d e * b d e))).
  { rewrite sumn_swap. apply sumn_ext; intros. apply sumn_ext; intros. unfold eps_sym. ring. }
  transitivity (/2 * (sumn n (fun d => sumn n (fun e => eps_sym a d e * b d e)) + sumn n (fun d => sumn n (fun e => eps_sym a d e * b e d)))).
  - rewrite <- sumn_plus, <- sumn_scal. apply sumn_ext; intros. rewrite <- sumn_plus, <- sumn_scal. apply sumn_ext; intros. unfold eps_sym at 2. ring.
  - rewrite X. field.
Qed.
Lemma stress_is_form s q g p gv :
  sumn (dim s) (fun d => sumn (dim s) (fun e => stress s q true g p d e * gv d e)) = stress_form s q g p gv.
Proof.
  unfold stress_form. rewrite contract_sym. unfold contract, trace at 2. rewrite <- !sumn_scal, <- sumn_plus. apply sumn_ext; intros d Hd.
  rewrite <- sumn_scal.
  transitivity (sumn (dim s) (fun e => 2 * (mu q * s_tau1 s) * (eps_sym g d e * gv d e)) + sumn (dim s) (fun e => if Nat.eqb d e then (tau_grad_div s * trace (dim s) g - p) * gv d d else 0)).
  - rewrite <- sumn_plus. apply sumn_ext; intros e He. unfold stress, eps_sym. destruct (Nat.eqb_spec d e); [subst|]; field.
  - f_equal. rewrite (sumn_delta (dim s) d); [rewrite Nat.eqb_refl; reflexivity|assumption|].
    intros i Hi Hne. destruct (Nat.eqb_spec d i); [congruence|reflexivity].
Qed.

Theorem C55_residual_weak_form :
  forall (s : setting) (m0 m1 : option mode) (pts : list (qpoint * stored)) cu cp fu fp (U P : vec),
    forall ru rp pts', residual s m0 m1 pts cu cp fu fp U P = ((ru, rp), pts') ->
    (forall i, constrained_u s i = false ->
       ru i = fu i - cu i - suml (map fst pts) (fun q => JxW q *
         ((if is_stokes_type (s_type s) then 0
           else sumn (dim s) (fun d => (rho q * inertia s q (eval_value s q U) (eval_gradient s q U) d - damping q * eval_value s q U d) * phi q i d))
          + stress_form s q (eval_gradient s q U) (eval_pressure s q P) (dphi q i)))) /\
    (forall i, constrained_u s i = true -> ru i = fu i - cu i) /\
    (rp = average_projection s m0 m1 (fun i => fp i - cp i - (if constrained_p s i || is_proj (s_lin s) then 0
       else suml (map fst pts) (fun q => JxW q * (- trace (dim s) (eval_gradient s q U) * psi q i))))).
Proof.
  intros s m0 m1 pts cu cp fu fp U P ru rp pts' R. unfold residual in R. inversion R; subst ru rp; clear R. split; [|split].
  - intros i C. rewrite C. rewrite !suml_map. cbn [fst snd].
    match goal with |- - (cu i + ?a) + fu i = fu i - cu i - ?b => assert (a = b) as ->; [|ring] end.
    apply suml_ext; intros [q l] _. cbn [fst snd]. unfold test_velocity, residual_point. 
    destruct (is_stokes_type (s_type s)) eqn:St.
    + match goal with |- context [let '(_, _) := ?x in _] => destruct x as [conv l'] end. cbn [fst o_value o_gradient].
      rewrite stress_is_form. rewrite sumn_zero; [ring|intros; ring].
    + match goal with |- context [let '(_, _) := ?x in _] => set (y := x); destruct y as [conv l'] eqn:Y; subst y end. cbn [fst o_value o_gradient].
      rewrite stress_is_form. do 2 f_equal. apply sumn_ext; intros d _. f_equal. f_equal. rewrite (Rmult_comm (conv d)). f_equal.
      unfold inertia, convection, extrapol, time_step_weight in *.
      destruct (s_lin s); cbn [need_extrapolated is_explicit is_newton] in Y; inversion Y; subst conv; clear Y;
        destruct (s_type s); try discriminate St; cbn [is_transient is_stationary_type]; ring.
  - intros i C. rewrite C. ring.
  - f_equal. fext. destruct (constrained_p s x) eqn:C; cbn [orb]; [ring|]. rewrite !suml_map. cbn [fst snd].
    match goal with |- - (cp x + ?a) + fp x = fp x - cp x - ?b => assert (a = b) as ->; [|ring] end.
    unfold test_pressure. destruct (is_proj (s_lin s)); [apply suml_zero; auto|].
    apply suml_ext; intros [q l] _. cbn [fst snd]. unfold residual_point.
    match goal with |- context [let '(_, _) := ?x in _] => destruct x as [conv l'] end. destruct (is_stokes_type (s_type s)); reflexivity.
Qed.
Print Assumptions C55_residual_weak_form.

(** The Stokes operator (velocity and pressure blocks, without average projection) is symmetric *)
Definition pairing (s : setting) (a b c d : vec) : R := dot (n_u s) a c + dot (n_p s) b d.
Lemma stress_form_sym s q g p gv r :
  stress_form s q g p gv + - trace (dim s) g * r = stress_form s q gv r g + - trace (dim s) gv * p.
Proof.
  unfold stress_form. assert (contract (dim s) (eps_sym g) (eps_sym gv) = contract (dim s) (eps_sym gv) (eps_sym g)) as ->; [|ring].
  unfold contract. apply sumn_ext; intros; apply sumn_ext; intros; ring.
Qed.
Lemma tested_velocity s q o M :
  sumn (n_u s) (fun i => test_velocity s q o i * M i)
  = JxW q * (sumn (dim s) (fun d => o_value o d * eval_value s q M d)
             + sumn (dim s) (fun d => sumn (dim s) (fun e => o_gradient o d e * eval_gradient s q M d e))).
Proof.
  unfold test_velocity, eval_value, eval_gradient.
  rewrite (sumn_ext (n_u s) _ (fun i => JxW q * (sumn (dim s) (fun d => o_value o d * (M i * phi q i d)) + sumn (dim s) (fun d => sumn (dim s) (fun e => o_gradient o d e * (M i * dphi q i d e)))))).
  - rewrite sumn_scal, sumn_plus. f_equal. f_equal.
    + rewrite sumn_swap. apply sumn_ext; intros. rewrite sumn_scal. reflexivity.
    + rewrite sumn_swap. apply sumn_ext; intros d _. rewrite sumn_swap. apply sumn_ext; intros. rewrite sumn_scal. reflexivity.
  - intros i _. rewrite Rmult_assoc. f_equal. rewrite Rmult_plus_distr_r. f_equal.
    + rewrite <- sumn_scal_r. apply sumn_ext; intros; ring.
    + rewrite <- sumn_scal_r. apply sumn_ext; intros. rewrite <- sumn_scal_r. apply sumn_ext; intros; ring.
Qed.
Lemma tested_pressure s q o M : is_proj (s_lin s) = false ->
  sumn (n_p s) (fun i => test_pressure s q o i * M i) = JxW q * (o_pressure o * eval_pressure s q M).
Proof.
  intros H. unfold test_pressure, eval_pressure. rewrite H. rewrite <- !sumn_scal. apply sumn_ext; intros; ring.
Qed.

Theorem C55_stokes_symmetric :
  forall (s : setting) (pts : list (qpoint * stored)), s_type s = stokes -> s_lin s <> projection ->
  forall D E D' E' : vec,
    let v := vmult s None None pts D E in let v' := vmult s None None pts D' E' in
    pairing s (fst v) (snd v) D' E' = pairing s (fst v') (snd v') D E.
Proof.
  intros s pts Hs Hl.
  assert (Hp : is_proj (s_lin s) = false) by (destruct (s_lin s); auto; congruence).
  assert (K : forall D E D' E', pairing s (fst (vmult s None None pts D E)) (snd (vmult s None None pts D E)) D' E'
     = sumn (n_u s) (fun i => if constrained_u s i then D i * D' i else 0) + sumn (n_p s) (fun i => if constrained_p s i then - (E i * E' i) else 0)
       + suml pts (fun ql => let q := fst ql in
           let D1 := masked (constrained_u s) D in let D2 := masked (constrained_u s) D' in
           let E1 := masked (constrained_p s) E in let E2 := masked (constrained_p s) E' in
           JxW q * (stress_form s q (eval_gradient s q D1) (eval_pressure s q E1) (eval_gradient s q D2)
                    + - trace (dim s) (eval_gradient s q D1) * eval_pressure s q E2))).
  { intros D E D' E'. unfold pairing, vmult, average_projection. cbn [fst snd project_mode].
    replace (if negb (is_proj (s_lin s)) && negb (is_stationary_type (s_type s)) then _ else _)
      with (fun i => if constrained_p s i then - E i else suml (map (fun ql => (fst ql, vmult_point s (fst ql) true (snd ql) (eval_value s (fst ql) (masked (constrained_u s) D)) (eval_gradient s (fst ql) (masked (constrained_u s) D)) (eval_pressure s (fst ql) (masked (constrained_p s) E)))) pts) (fun o => test_pressure s (fst o) (snd o) i))
      by (destruct (_ && _); reflexivity).
    unfold dot.
    rewrite (sumn_ext (n_u s) _ (fun i => (if constrained_u s i then D i * D' i else 0) + suml pts (fun ql => test_velocity s (fst ql) (vmult_point s (fst ql) true (snd ql) (eval_value s (fst ql) (masked (constrained_u s) D)) (eval_gradient s (fst ql) (masked (constrained_u s) D)) (eval_pressure s (fst ql) (masked (constrained_p s) E))) i * masked (constrained_u s) D' i))).
    2:{ intros i _. rewrite suml_map. change (masked (constrained_u s) D' i) with (if constrained_u s i then 0 else D' i). cbn [fst snd]. destruct (constrained_u s i).
        - rewrite suml_zero; [ring|intros; ring].
        - rewrite Rplus_0_l, Rmult_comm, <- suml_scal. apply suml_ext; intros; ring. }
    rewrite (sumn_ext (n_p s) _ (fun i => (if constrained_p s i then - (E i * E' i) else 0) + suml pts (fun ql => test_pressure s (fst ql) (vmult_point s (fst ql) true (snd ql) (eval_value s (fst ql) (masked (constrained_u s) D)) (eval_gradient s (fst ql) (masked (constrained_u s) D)) (eval_pressure s (fst ql) (masked (constrained_p s) E))) i * masked (constrained_p s) E' i))).
    2:{ intros i _. rewrite suml_map. change (masked (constrained_p s) E' i) with (if constrained_p s i then 0 else E' i). cbn [fst snd]. destruct (constrained_p s i).
        - rewrite suml_zero; [ring|intros; ring].
        - rewrite Rplus_0_l, Rmult_comm, <- suml_scal. apply suml_ext; intros; ring. }
    rewrite !sumn_plus. rewrite <- !suml_sumn.
    match goal with |- ?a + ?b + (?c + ?d) = ?a + ?c + ?e => assert (b + d = e) as <-; [|ring] end.
    rewrite <- suml_plus. apply suml_ext; intros [q l] _. cbn [fst snd]. cbv zeta.
    rewrite tested_velocity, tested_pressure by assumption. unfold vmult_point. rewrite Hs. cbn [is_stokes_type o_value o_gradient o_pressure].
    rewrite stress_is_form. rewrite sumn_zero by (intros; ring). ring. }
  intros D E D' E' v v'. unfold v, v'. rewrite !K. f_equal; [f_equal; apply sumn_ext; intros i _; destruct (_ s i); ring|].
  apply suml_ext; intros [q l] _. cbv zeta. cbn [fst]. rewrite stress_form_sym. reflexivity.
Qed.
Print Assumptions C55_stokes_symmetric.

(** ** Concrete instances *)
(** 1D, one point, two velocity and two pressure dofs; Newton; a nonlinear residual *)
Definition ex_setting (l : linearization) (t : physical_type) : setting :=
  MkSetting 1 2 2 (fun i => Nat.eqb i 0) (fun _ => false) t l (1/2) 3 (-4) 1 1 2 (-1) 1.
Definition ex_point : qpoint :=
  MkPoint 1 (fun j d => 1) (fun j d e => if Nat.eqb j 0 then -1 else 1) (fun j => 1) 2 1 (-1) (fun _ => 1) (fun _ _ => 0) (fun _ => 0) (fun _ _ => 0).
Definition ex_pts : list (qpoint * stored) := [(ex_point, (fun _ => 0, fun _ _ => 0))].
Definition zv : vec := fun _ => 0.
Definition ones : vec := fun _ => 1.
Definition unit1 : vec := fun i => if Nat.eqb i 1 then 1 else 0.
Example C24_nonvacuous :
  zero_on (constrained_u (ex_setting coupled_implicit_newton incompressible)) unit1 /\
  zero_on (constrained_p (ex_setting coupled_implicit_newton incompressible)) ones /\
  remainder (ex_setting coupled_implicit_newton incompressible) [ex_point] ones unit1 1%nat = 3 /\
  remainder (ex_setting coupled_implicit_picard incompressible) [ex_point] ones unit1 1%nat = 5 /\
  fst (vmult (ex_setting coupled_implicit_newton incompressible) None None
        (snd (residual (ex_setting coupled_implicit_newton incompressible) None None ex_pts zv zv zv zv ones zv)) unit1 zv) 1%nat <> 0.
Proof.
  split; [intros [|[|i]] H; cbn in H; try discriminate; reflexivity|].
  split; [intros i H; discriminate|].
  split; [cbv [remainder ex_setting constrained_u s_type is_stokes_type s_lin convective_form]; cbn; cbv [unit1 eval_value eval_gradient convection trace]; cbn; lra|].
  split; [cbv [remainder ex_setting constrained_u s_type is_stokes_type s_lin convective_form]; cbn; cbv [unit1 ones vplus eval_value eval_gradient convection trace]; cbn; lra|].
  cbv -[Rplus Rmult Ropp Rinv Rminus Rdiv IZR not]. lra.
Qed.
Example C26_nonvacuous :
  enabled (ex_setting coupled_implicit_newton incompressible) /\
  mode_mass 2 ones (fun i => Nat.eqb i 0) (fun _ => false) <> 0 /\ mode_mass 2 ones (fun i => Nat.eqb i 1) (fun _ => false) <> 0 /\
  weighted_mean 2 ones (fun i => Nat.eqb i 0) ones <> 0 /\ (forall i, Nat.eqb i 0 && Nat.eqb i 1 = false).
Proof.
  split; [split; discriminate|]. unfold mode_mass, weighted_mean, ones; cbn. repeat split; try lra. intros [|[|i]]; reflexivity.
Qed.
Example C55_nonvacuous :
  pairing (ex_setting coupled_implicit_newton stokes) (fst (vmult (ex_setting coupled_implicit_newton stokes) None None ex_pts unit1 zv))
    (snd (vmult (ex_setting coupled_implicit_newton stokes) None None ex_pts unit1 zv)) unit1 ones = 1.
Proof. cbv -[Rplus Rmult Ropp Rinv Rminus Rdiv IZR not]. lra. Qed.
