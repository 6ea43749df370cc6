(** * Imposed boundary values: C87 (velocity), C88 (open boundaries) *)
From Coq Require Import Reals List Bool Arith Lra Lia.
From Verif Require Import SumR Model_Parameters Model_NSOperator Properties_NSOperator Model_BoundaryValues.
Import ListNotations.
Open Scope R_scope.

(** ** Specification *)
(** resolved lines: masters are free *)
Definition closed (hanging : lines) : Prop := forall i l m w, hanging i = Some l -> In (m, w) l -> hanging m = None.
(** all faces that prescribe unknown i prescribe the value v *)
Definition prescribes {point} (c : conditions point) (time : R) (f : bface point) (i : nat) (v : R) : Prop :=
  exists g x k, imposed_function c time (bf_id f) = Some g /\ In (i, x, k) (bf_dofs f) /\ v = g x k.
Definition prescribed {point} (c : conditions point) (time : R) (faces : list (bface point)) (i : nat) (v : R) : Prop :=
  (exists f, In f faces /\ prescribes c time f i v) /\
  (forall f v', In f faces -> prescribes c time f i v' -> v' = v).

Section Velocity.
Context {point : Type}.
Implicit Types (c : conditions point) (faces : list (bface point)) (hanging : lines).

Lemma write_dofs_none (f : point -> nat -> R) l m i : (forall x k, ~ In (i, x, k) l) -> write_dofs f l m i = m i.
Proof.
  revert m. induction l as [|[[j x] k] l IH]; intros m H; [reflexivity|]. cbn. unfold write_dofs in IH. rewrite IH.
  - destruct (Nat.eqb_spec j i) as [->|]; [exfalso; apply (H x k); left; reflexivity|reflexivity].
  - intros x' k' Hin. apply (H x' k'). right. exact Hin.
Qed.
Lemma write_dofs_some (f : point -> nat -> R) l m i v : (exists x k, In (i, x, k) l) -> (forall x k, In (i, x, k) l -> f x k = v) -> write_dofs f l m i = Some v.
Proof.
  intros Hex Hall. revert m. induction l as [|[[j x] k] l IH]; intros m; [destruct Hex as (x & k & [])|]. cbn. change (write_dofs f l (fun i0 => if Nat.eqb j i0 then Some (f x k) else m i0) i = Some v).
  destruct (in_dec (fun a b => Nat.eq_dec a b) i (map (fun d => fst (fst d)) l)) as [Hin|Hin].
  - apply IH; [|intros x' k' H; apply Hall; right; exact H]. apply in_map_iff in Hin as ([[j' x'] k'] & E & H). cbn in E. subst j'. eauto.
  - rewrite write_dofs_none.
    + assert (j = i) as ->. { destruct Hex as (x' & k' & [E|E]); [congruence|]. exfalso. apply Hin. apply in_map_iff. exists (i, x', k'). auto. }
      rewrite Nat.eqb_refl. f_equal. apply Hall. left. reflexivity.
    + intros x' k' H. apply Hin. apply in_map_iff. exists (i, x', k'). auto.
Qed.
Lemma boundary_values_app c t faces f : boundary_values c t (faces ++ [f]) =
  match imposed_function c t (bf_id f) with Some g => write_dofs g (bf_dofs f) (boundary_values c t faces) | None => boundary_values c t faces end.
Proof. unfold boundary_values. rewrite fold_left_app. reflexivity. Qed.
Lemma dof_on_face_dec (f : bface point) i : (exists x k, In (i, x, k) (bf_dofs f)) \/ (forall x k, ~ In (i, x, k) (bf_dofs f)).
Proof.
  destruct (in_dec Nat.eq_dec i (map (fun d => fst (fst d)) (bf_dofs f))) as [H|H].
  - left. apply in_map_iff in H as ([[j x] k] & E & H). cbn in E. subst. eauto.
  - right. intros x k Hin. apply H. apply in_map_iff. exists (i, x, k). auto.
Qed.
Lemma boundary_values_prescribed c t faces i v : prescribed c t faces i v -> boundary_values c t faces i = Some v.
Proof.
  induction faces as [|f faces IH] using rev_ind; intros [Hex Hall]; [destruct Hex as (f & [] & _)|]. rewrite boundary_values_app.
  assert (R : (forall v', prescribes c t f i v' -> False) -> boundary_values c t faces i = Some v).
  { intros N. apply IH. split.
    - destruct Hex as (f' & Hin & Hp). apply in_app_iff in Hin as [Hin|[<-|[]]]; [eauto|]. exfalso. eapply N. exact Hp.
    - intros f' v' Hin Hp. apply (Hall f' v'); [apply in_app_iff; auto|exact Hp]. }
  destruct (imposed_function c t (bf_id f)) as [g|] eqn:E.
  - destruct (dof_on_face_dec f i) as [H|H].
    + apply write_dofs_some; [exact H|]. intros x k Hin. apply (Hall f); [apply in_app_iff; right; left; reflexivity|]. exists g, x, k. auto.
    + rewrite write_dofs_none by exact H. apply R. intros v' (g' & x & k & _ & Hin & _). exact (H x k Hin).
  - apply R. intros v' (g' & x & k & E' & _). congruence.
Qed.
Lemma boundary_values_none c t faces i : (forall f v, In f faces -> ~ prescribes c t f i v) -> boundary_values c t faces i = None.
Proof.
  induction faces as [|f faces IH] using rev_ind; intros H; [reflexivity|]. rewrite boundary_values_app.
  assert (IH' : boundary_values c t faces i = None) by (apply IH; intros f' v Hin; apply H; apply in_app_iff; auto).
  destruct (imposed_function c t (bf_id f)) as [g|] eqn:E; [|exact IH']. rewrite write_dofs_none; [exact IH'|].
  intros x k Hin. apply (H f (g x k)); [apply in_app_iff; right; left; reflexivity|]. exists g, x, k. auto.
Qed.
Lemma prescribed_on_dirichlet c t faces i v : prescribed c t faces i v -> on_dirichlet c faces i = true.
Proof.
  intros [(f & Hin & g & x & k & E & Hd & _) _]. unfold on_dirichlet. apply existsb_exists. exists f. split; [exact Hin|]. apply andb_true_iff. split.
  - unfold imposed_function in E. unfold is_dirichlet_id. destruct (no_slip_ids c (bf_id f)); [reflexivity|]. destruct (dirichlet_conditions c (bf_id f)); [reflexivity|discriminate].
  - apply existsb_exists. exists (i, x, k). split; [exact Hd|]. apply Nat.eqb_refl.
Qed.
(** the update vanishes at free Dirichlet unknowns and fulfils the hanging node, periodicity and symmetry conditions *)
Lemma update_dirichlet c faces hanging x i : hanging i = None -> on_dirichlet c faces i = true -> distribute (constraints_u c faces hanging) x i = 0.
Proof. intros H D. unfold distribute, constraints_u. rewrite H, D. reflexivity. Qed.
Lemma update_hanging c faces hanging x i l : closed hanging -> hanging i = Some l ->
  distribute (constraints_u c faces hanging) x i = suml l (fun mw => snd mw * distribute (constraints_u c faces hanging) x (fst mw)).
Proof.
  intros Hc H. unfold distribute at 1. unfold constraints_u at 1. rewrite H.
  assert (K : forall l', incl l' l -> suml (filter (fun mw => negb (is_free hanging (fst mw) && on_dirichlet c faces (fst mw))) l') (fun mw => snd mw * x (fst mw)) =
              suml l' (fun mw => snd mw * distribute (constraints_u c faces hanging) x (fst mw))).
  { induction l' as [|[m w] l' IH]; intros Hin; [reflexivity|]. cbn [filter fst].
    assert (Hm : hanging m = None) by (apply (Hc i l m w H), Hin; left; reflexivity).
    assert (Hf : is_free hanging m = true) by (unfold is_free; rewrite Hm; reflexivity). rewrite Hf. cbn [andb].
    assert (IH' := IH (fun y Hy => Hin y (or_intror Hy))).
    destruct (on_dirichlet c faces m) eqn:D; cbn [negb suml fst snd].
    - rewrite IH'. rewrite (update_dirichlet c faces hanging x m Hm D). ring.
    - rewrite IH'. f_equal. f_equal. unfold distribute, constraints_u. rewrite Hm, D. reflexivity. }
  apply K. apply incl_refl.
Qed.
End Velocity.

(** ** C87 *)
(** at every free unknown with a uniquely prescribed value the velocity has this value (of the new time) after any number of nonlinear
    iterations, whatever the linear solver returned *)
Theorem C87_prescribed_values : forall {point} (c : conditions point) (time : R) (faces : list (bface point)) (hanging : lines) (xs : list (nat -> R)) (u : nat -> R) i v,
  hanging i = None -> prescribed c time faces i v ->
  newton_updates c faces hanging xs (apply_boundary_conditions_u c time faces hanging u) i = v.
Proof.
  intros point c time faces hanging xs u i v Hh Hp.
  assert (D := prescribed_on_dirichlet _ _ _ _ _ Hp).
  assert (G : forall xs u, u i = v -> newton_updates c faces hanging xs u i = v).
  { clear xs u. induction xs as [|x xs IH]; intros u H; [exact H|]. cbn. apply IH. unfold newton_update. rewrite (update_dirichlet c faces hanging x i Hh D). lra. }
  apply G. unfold apply_boundary_conditions_u, distribute. rewrite Hh, (boundary_values_prescribed _ _ _ _ _ Hp). reflexivity.
Qed.
(** which value is prescribed: that of the Dirichlet function at the new time, zero on no-slip boundaries, also if a Dirichlet function is registered
    for the same id *)
Theorem C87_which_value : forall {point} (c : conditions point) time id,
  (no_slip_ids c id = true -> imposed_function c time id = Some (fun _ _ => 0)) /\
  (no_slip_ids c id = false -> forall f, dirichlet_conditions c id = Some f -> imposed_function c time id = Some (f time)) /\
  (no_slip_ids c id = false -> dirichlet_conditions c id = None -> imposed_function c time id = None).
Proof. intros. unfold imposed_function. repeat split; intros H; rewrite H; [reflexivity| |]; [intros f ->; reflexivity|intros ->; reflexivity]. Qed.
(** hanging node, periodicity and zero normal (tangential) velocity conditions hold for the velocity before and after every nonlinear iteration *)
Theorem C87_linear_conditions : forall {point} (c : conditions point) (time : R) (faces : list (bface point)) (hanging : lines) (xs : list (nat -> R)) (u : nat -> R) i l,
  closed hanging -> hanging i = Some l ->
  let w := newton_updates c faces hanging xs (apply_boundary_conditions_u c time faces hanging u) in
  w i = suml l (fun mw => snd mw * w (fst mw)).
Proof.
  intros point c time faces hanging xs u i l Hc H.
  assert (G : forall xs u, u i = suml l (fun mw => snd mw * u (fst mw)) ->
              let w := newton_updates c faces hanging xs u in w i = suml l (fun mw => snd mw * w (fst mw))).
  { clear xs u. induction xs as [|x xs IH]; intros u E; [exact E|]. cbn. apply IH. unfold newton_update. rewrite (update_hanging c faces hanging x i l Hc H), E.
    rewrite <- suml_plus. apply suml_ext. intros; ring. }
  apply G. unfold apply_boundary_conditions_u at 1. unfold distribute at 1. rewrite H. apply suml_ext. intros [m w] Hin. cbn [fst snd].
  unfold apply_boundary_conditions_u, distribute. rewrite (Hc i l m w H Hin). reflexivity.
Qed.
(** free unknowns away from Dirichlet and no-slip faces are not touched by the boundary conditions *)
Theorem C87_elsewhere : forall {point} (c : conditions point) time (faces : list (bface point)) hanging u i,
  hanging i = None -> (forall f v, In f faces -> ~ prescribes c time f i v) -> apply_boundary_conditions_u c time faces hanging u i = u i.
Proof. intros point c time faces hanging u i Hh H. unfold apply_boundary_conditions_u, distribute. rewrite Hh, boundary_values_none by exact H. reflexivity. Qed.
(** Nothing else is held fixed: at an unknown without a line that lies on no face with an imposed condition the iteration applies the
    whole update, so that the value after the step is the start value plus the updates of the linear solver *)
Theorem C87_only_there : forall {point} (c : conditions point) time (faces : list (bface point)) hanging xs u i,
  hanging i = None -> (forall f v, In f faces -> ~ prescribes c time f i v) ->
  newton_updates c faces hanging xs u i = u i + suml xs (fun x => x i).
Proof.
  intros point c time faces hanging xs u i Hh H.
  assert (D : on_dirichlet c faces i = false).
  { unfold on_dirichlet. apply not_true_iff_false. intros E. apply existsb_exists in E as (f & Hf & E). apply andb_true_iff in E as [E1 E2].
    apply existsb_exists in E2 as ([[j x] k] & Hd & E2). apply Nat.eqb_eq in E2. cbn in E2. subst j.
    unfold is_dirichlet_id in E1. unfold prescribes, imposed_function in H. destruct (no_slip_ids c (bf_id f)) eqn:En.
    - apply (H f 0 Hf). exists (fun _ _ => 0), x, k. rewrite En. auto.
    - destruct (dirichlet_conditions c (bf_id f)) as [g|] eqn:Eg; [|discriminate E1].
      apply (H f (g time x k) Hf). exists (g time), x, k. rewrite En, Eg. auto. }
  revert u. induction xs as [|x xs IH]; intros u; cbn [newton_updates suml]; [ring|]. rewrite IH.
  unfold newton_update, distribute, constraints_u. rewrite Hh, D. ring.
Qed.
Print Assumptions C87_only_there.
(** not all prescribed values are met: (a) an unknown shared by faces with different prescriptions gets the value of the face visited last, so the
    result depends on the order of the cells and no-slip does not win *)
Theorem C87_violation_shared : forall {point} (c : conditions point) time (faces : list (bface point)) f hanging xs u i v,
  hanging i = None -> prescribes c time f i v -> (forall v', prescribes c time f i v' -> v' = v) ->
  newton_updates c (faces ++ [f]) hanging xs (apply_boundary_conditions_u c time (faces ++ [f]) hanging u) i = v.
Proof.
  intros point c time faces f hanging xs u i v Hh Hp Hu.
  assert (D : on_dirichlet c (faces ++ [f]) i = true).
  { assert (D := prescribed_on_dirichlet c time [f] i v). unfold on_dirichlet in *. rewrite existsb_app. rewrite D; [apply orb_true_r|].
    split; [exists f; split; [left; reflexivity|exact Hp]|]. intros f' v' [<-|[]]. apply Hu. }
  assert (G : forall xs u, u i = v -> newton_updates c (faces ++ [f]) hanging xs u i = v).
  { clear xs u. induction xs as [|x xs IH]; intros u H; [exact H|]. cbn. apply IH. unfold newton_update. rewrite (update_dirichlet c _ hanging x i Hh D). lra. }
  apply G. unfold apply_boundary_conditions_u, distribute. rewrite Hh, boundary_values_app. destruct Hp as (g & x & k & E & Hin & ->). rewrite E.
  rewrite (write_dofs_some g (bf_dofs f) _ i (g x k)); [reflexivity|eauto|]. intros x' k' H'. apply Hu. exists g, x', k'. auto.
Qed.
(** (b) an unknown on a Dirichlet boundary that is also constrained (hanging node, symmetry) gets the combination of the values at its masters *)
Definition hanging_face : bface R := MkBFace 0 [(0%nat, 0, 0%nat); (1%nat, 1/2, 0%nat); (2%nat, 1, 0%nat)].
Definition parabola : conditions R := MkConditions (fun id => if Nat.eqb id 0 then Some (fun _ x _ => x * x) else None) (fun _ => false).
Definition middle_hangs : lines := fun i => if Nat.eqb i 1 then Some [(0%nat, 1/2); (2%nat, 1/2)] else None.
Theorem C87_violation_hanging : closed middle_hangs /\ prescribed parabola 0 [hanging_face] 1 (1/4) /\
  forall xs u, newton_updates parabola [hanging_face] middle_hangs xs (apply_boundary_conditions_u parabola 0 [hanging_face] middle_hangs u) 1 = 1/2.
Proof.
  assert (C : closed middle_hangs).
  { intros i l m w. unfold middle_hangs at 1. destruct (Nat.eqb i 1); [|discriminate]. intros E. injection E as <-. intros [E|[E|[]]]; injection E as <- <-; reflexivity. }
  assert (P : forall i x, In (i, x, 0%nat) (bf_dofs hanging_face) -> (forall x', In (i, x', 0%nat) (bf_dofs hanging_face) -> x' = x) -> prescribed parabola 0 [hanging_face] i (x * x)).
  { intros i x Hin Hu. split.
    - exists hanging_face. split; [left; reflexivity|]. exists (fun y _ => y * y), x, 0%nat. split; [reflexivity|]. auto.
    - intros f v' [<-|[]] (g & x' & k & E & H & ->). cbn in E. injection E as <-. assert (k = 0%nat) as -> by (cbn in H; destruct H as [H|[H|[H|[]]]]; congruence). rewrite (Hu x' H). reflexivity. }
  split; [exact C|]. split; [replace (1/4) with (1/2 * (1/2)) by lra; apply P; [cbn; auto|]; cbn; intros x' [E|[E|[E|[]]]]; congruence|].
  intros xs u. rewrite (C87_linear_conditions parabola 0 [hanging_face] middle_hangs xs u 1 [(0%nat, 1/2); (2%nat, 1/2)] C eq_refl). cbn [suml fst snd].
  rewrite (C87_prescribed_values parabola 0 [hanging_face] middle_hangs xs u 0 (0 * 0) eq_refl) by (apply P; [cbn; auto|cbn; intros x' [E|[E|[E|[]]]]; congruence]).
  rewrite (C87_prescribed_values parabola 0 [hanging_face] middle_hangs xs u 2 (1 * 1) eq_refl) by (apply P; [cbn; auto|cbn; intros x' [E|[E|[E|[]]]]; congruence]). lra.
Qed.
Print Assumptions C87_prescribed_values.
Print Assumptions C87_which_value.
Print Assumptions C87_linear_conditions.
Print Assumptions C87_elsewhere.
Print Assumptions C87_violation_shared.
Print Assumptions C87_violation_hanging.
Example C87_nonvacuous : prescribed parabola 0 [hanging_face] 2 1 /\ middle_hangs 2 = None.
Proof.
  split; [|reflexivity]. split.
  - exists hanging_face. split; [left; reflexivity|]. exists (fun y _ => y * y), 1, 0%nat. split; [reflexivity|]. split; [cbn; auto|lra].
  - intros f v' [<-|[]] (g & x' & k & E & H & ->). cbn in E. injection E as <-. cbn in H. destruct H as [H|[H|[H|[]]]]; injection H; intros; subst; try discriminate; lra.
Qed.
(** a lid (id 1, velocity one) and a no-slip wall (id 0) share unknown 3: either order is possible *)
Example C87_shared_example : let c := MkConditions (fun id => if Nat.eqb id 1 then Some (fun (_ : R) (_ : R) (_ : nat) => 1) else None) (fun id => Nat.eqb id 0) in
  let wall := MkBFace 0 [(3%nat, 0, 0%nat)] in let lid := MkBFace 1 [(3%nat, 0, 0%nat)] in
  apply_boundary_conditions_u c 0 [wall; lid] (fun _ => None) (fun _ => 0) 3 = 1 /\ apply_boundary_conditions_u c 0 [lid; wall] (fun _ => None) (fun _ => 0) 3 = 0.
Proof. split; reflexivity. Qed.

(** ** C88 *)
(** velocity field of a coefficient vector at a point of a face, and its normal component *)
Definition normal_velocity {point} (dim : nat) (f : oface point) (V : nat -> R) (q : fqpoint point) : R :=
  sumn dim (fun d => sumn (of_n f) (fun a => V (of_dof f a) * fq_phi q a d) * fq_normal q d).
Definition fulfils (con : lines) (V : nat -> R) : Prop := forall i l, con i = Some l -> V i = suml l (fun mw => snd mw * V (fst mw)).
Lemma expand_fulfils con V h : fulfils con V -> suml (expand con h) (fun mw => snd mw * V (fst mw)) = V h.
Proof. intros F. unfold expand. destruct (con h) as [l|] eqn:E; [symmetry; apply F; exact E|cbn; ring]. Qed.
Lemma suml_delta_list N (l : list (nat * R)) (V : nat -> R) r : (forall mw, In mw l -> (fst mw < N)%nat) ->
  sumn N (fun g => V g * suml l (fun mw => if Nat.eqb (fst mw) g then snd mw * r else 0)) = r * suml l (fun mw => snd mw * V (fst mw)).
Proof.
  intros H. rewrite (sumn_ext N _ (fun g => suml l (fun mw => V g * (if Nat.eqb (fst mw) g then snd mw * r else 0)))) by (intros; rewrite suml_scal; reflexivity).
  rewrite <- suml_sumn, <- suml_scal. apply suml_ext. intros [m w] Hin. cbn [fst snd]. rewrite (sumn_delta N m).
  - rewrite Nat.eqb_refl. ring.
  - exact (H _ Hin).
  - intros g _ Hg. rewrite (proj2 (Nat.eqb_neq m g)) by congruence. ring.
Qed.
(** the right hand side is the virtual work of the prescribed pressure (at the new time) on all open faces, for every velocity that fulfils the
    constraints; what the vector held before does not matter *)
Theorem C88_virtual_work : forall {point} dim (open : nat -> option (R -> point -> R)) time con (faces : list (oface point)) before (V : nat -> R) N,
  fulfils con V -> (forall f a mw, In f faces -> (a < of_n f)%nat -> In mw (expand con (of_dof f a)) -> (fst mw < N)%nat) ->
  sumn N (fun g => V g * const_rhs dim open time con faces before g) =
  suml faces (fun f => match open (of_id f) with
                       | Some p => suml (of_pts f) (fun q => fq_JxW q * (p time (fq_pos q) * normal_velocity dim f V q))
                       | None => 0 end).
Proof.
  intros point dim open time con faces before V N F HN. unfold const_rhs.
  rewrite (sumn_ext N _ (fun g => suml faces (fun f => V g * match open (of_id f) with Some p => face_rhs dim con (p time) f g | None => 0 end))) by (intros; rewrite suml_scal; ring).
  rewrite <- suml_sumn. apply suml_ext. intros f Hf. destruct (open (of_id f)) as [p|]; [|apply sumn_zero; intros; ring].
  unfold face_rhs. rewrite (sumn_ext N _ (fun g => sumn (of_n f) (fun a => V g * suml (expand con (of_dof f a)) (fun mw => if Nat.eqb (fst mw) g then snd mw * cell_rhs dim (p time) f a else 0)))) by (intros; rewrite <- sumn_scal; reflexivity).
  rewrite sumn_swap. rewrite (sumn_ext (of_n f) _ (fun a => cell_rhs dim (p time) f a * V (of_dof f a))).
  - unfold cell_rhs. rewrite (sumn_ext (of_n f) _ (fun a => suml (of_pts f) (fun q => fq_JxW q * p time (fq_pos q) * (V (of_dof f a) * sumn dim (fun d => fq_phi q a d * fq_normal q d))))).
    + rewrite <- suml_sumn. apply suml_ext. intros q _. rewrite sumn_scal. rewrite Rmult_assoc. f_equal. f_equal. unfold normal_velocity.
      rewrite (sumn_ext (of_n f) _ (fun a => sumn dim (fun d => V (of_dof f a) * fq_phi q a d * fq_normal q d))) by (intros; rewrite <- sumn_scal; apply sumn_ext; intros; ring).
      rewrite sumn_swap. apply sumn_ext. intros d _. rewrite sumn_scal_r. reflexivity.
    + intros a _. rewrite (Rmult_comm (suml _ _)), <- suml_scal. apply suml_ext. intros q _. ring.
  - intros a Ha. rewrite suml_delta_list by (intros mw Hmw; apply (HN f a mw Hf Ha Hmw)). rewrite expand_fulfils by exact F. ring.
Qed.
(** nothing is added where no pressure is prescribed, and to rows of constrained unknowns *)
Theorem C88_constrained_rows : forall {point} dim (open : nat -> option (R -> point -> R)) time con (faces : list (oface point)) before g,
  closed con -> con g <> None -> const_rhs dim open time con faces before g = 0.
Proof.
  intros point dim open time con faces before g Hc Hg. unfold const_rhs. rewrite suml_zero; [ring|]. intros f _. destruct (open (of_id f)); [|reflexivity].
  unfold face_rhs. apply sumn_zero. intros a _. apply suml_zero. intros [m w] Hin. cbn [fst snd]. destruct (Nat.eqb_spec m g) as [->|]; [|reflexivity]. exfalso. apply Hg.
  unfold expand in Hin. destruct (con (of_dof f a)) as [l|] eqn:E; [apply (Hc _ _ _ _ E Hin)|destruct Hin as [Hin|[]]; congruence].
Qed.
Theorem C88_fresh : forall {point} dim (open : nat -> option (R -> point -> R)) time con (faces : list (oface point)) b1 b2 g,
  const_rhs dim open time con faces b1 g = const_rhs dim open time con faces b2 g /\
  ((forall f, In f faces -> open (of_id f) = None) -> const_rhs dim open time con faces b1 g = 0).
Proof. intros. split; [reflexivity|]. intros H. unfold const_rhs. rewrite suml_zero; [ring|]. intros f Hf. rewrite H by exact Hf. reflexivity. Qed.
(** equilibrium: fluid at rest with pressure p0 everywhere and the external pressure p0 on the open boundaries has no residual in the momentum
    equation; the sign of the boundary term is that of an external pressure.  Hypothesis: the quadrature formulas fulfil the divergence theorem for
    each free shape function (which vanishes on the remaining boundary) *)
Definition dirichlet_lines (con : nat -> bool) : lines := fun i => if con i then Some [] else None.
Definition divergence_theorem {point} (s : setting) (pts : list (qpoint * stored)) (open : nat -> option (R -> point -> R)) (faces : list (oface point)) (i : nat) : Prop :=
  suml (map fst pts) (fun q => JxW q * sumn (dim s) (fun d => dphi q i d d)) =
  suml faces (fun f => match open (of_id f) with
    | Some _ => sumn (of_n f) (fun a => if Nat.eqb (of_dof f a) i then suml (of_pts f) (fun q => sumn (dim s) (fun d => fq_phi q a d * fq_normal q d) * fq_JxW q) else 0)
    | None => 0 end).
Definition at_rest (q : qpoint) : Prop := (forall d, old_value q d = 0 /\ old_old_value q d = 0) /\ (forall d e, old_gradient q d e = 0 /\ old_old_gradient q d e = 0).
Theorem C88_equilibrium : forall {point} (s : setting) m0 m1 pts (open : nat -> option (R -> point -> R)) time (faces : list (oface point)) p0 (P : vec) cp fp ru rp pts',
  (forall q, In q (map fst pts) -> at_rest q /\ eval_pressure s q P = p0) ->
  (forall f p x, In f faces -> open (of_id f) = Some p -> p time x = p0) ->
  residual s m0 m1 pts (const_rhs (dim s) open time (dirichlet_lines (constrained_u s)) faces (fun _ => 0)) cp (fun _ => 0) fp (fun _ => 0) P = ((ru, rp), pts') ->
  forall i, constrained_u s i = false -> divergence_theorem s pts open faces i -> ru i = 0.
Proof.
  intros point s m0 m1 pts open time faces p0 P cp fp ru rp pts' Hq Hp E i Hi G.
  destruct (C55_residual_weak_form _ _ _ _ _ _ _ _ _ _ _ _ _ E) as (R & _ & _). rewrite (R i Hi).
  assert (C : const_rhs (dim s) open time (dirichlet_lines (constrained_u s)) faces (fun _ => 0) i = p0 * suml (map fst pts) (fun q => JxW q * sumn (dim s) (fun d => dphi q i d d))).
  { unfold divergence_theorem in G. rewrite G. unfold const_rhs. rewrite Rplus_0_l, <- suml_scal. apply suml_ext. intros f Hf. destruct (open (of_id f)) as [p|] eqn:O; [|ring].
    unfold face_rhs. rewrite <- sumn_scal. apply sumn_ext. intros a _. unfold expand, dirichlet_lines. destruct (Nat.eqb_spec (of_dof f a) i) as [Ea|Na].
    - rewrite Ea, Hi. cbn [suml fst snd]. rewrite Nat.eqb_refl. unfold cell_rhs. rewrite Rplus_0_r, Rmult_1_l, <- suml_scal. apply suml_ext. intros q _. rewrite (Hp f p _ Hf O). ring.
    - destruct (constrained_u s (of_dof f a)); cbn [suml fst snd]; [ring|]. rewrite (proj2 (Nat.eqb_neq _ _)) by exact Na. ring. }
  rewrite C.
  match goal with |- 0 - ?a - ?b = 0 => assert (K : b = - a); [|rewrite K; ring] end.
  rewrite <- Ropp_mult_distr_l_reverse, <- suml_scal. apply suml_ext. intros q Hin. destruct (Hq q Hin) as [[A1 A2] Pq]. rewrite Pq.
  assert (V0 : forall d, eval_value s q (fun _ => 0) d = 0) by (intros d; unfold eval_value; apply sumn_zero; intros; ring).
  assert (G0 : forall d e, eval_gradient s q (fun _ => 0) d e = 0) by (intros d e; unfold eval_gradient; apply sumn_zero; intros; ring).
  assert (T0 : trace (dim s) (eval_gradient s q (fun _ => 0)) = 0) by (apply sumn_zero; intros; apply G0).
  assert (I0 : forall d, inertia s q (eval_value s q (fun _ => 0)) (eval_gradient s q (fun _ => 0)) d = 0).
  { intros d. assert (Cv : forall a ga u g, (forall e, u e = 0) -> (forall d e, g d e = 0) -> convection s a ga u g d = 0).
    { intros a ga u g Hu Hg. unfold convection. rewrite Hu. rewrite sumn_zero by (intros; rewrite Hg; ring). ring. }
    unfold inertia. rewrite V0, (proj1 (A1 d)), (proj2 (A1 d)).
    assert (X : match s_lin s with coupled_implicit_newton | coupled_implicit_picard => convection s (eval_value s q (fun _ => 0)) (eval_gradient s q (fun _ => 0)) (eval_value s q (fun _ => 0)) (eval_gradient s q (fun _ => 0)) d
      | coupled_velocity_semi_implicit | projection => convection s (fun d => old_value q d * extrapol_old s + old_old_value q d * extrapol_old_old s) (fun d e => old_gradient q d e * extrapol_old s + old_old_gradient q d e * extrapol_old_old s) (eval_value s q (fun _ => 0)) (eval_gradient s q (fun _ => 0)) d
      | coupled_velocity_explicit => convection s (fun d => old_value q d * extrapol_old s + old_old_value q d * extrapol_old_old s) (fun d e => old_gradient q d e * extrapol_old s + old_old_gradient q d e * extrapol_old_old s)
          (fun d => old_value q d * extrapol_old s + old_old_value q d * extrapol_old_old s) (fun d e => old_gradient q d e * extrapol_old s + old_old_gradient q d e * extrapol_old_old s) d end = 0).
    { destruct (s_lin s); apply Cv; auto; intros; cbv beta; rewrite ?(proj1 (A1 _)), ?(proj2 (A1 _)), ?(proj1 (A2 _ _)), ?(proj2 (A2 _ _)); ring. }
    rewrite X. destruct (s_type s); ring. }
  assert (S0 : stress_form s q (eval_gradient s q (fun _ => 0)) p0 (dphi q i) = - p0 * trace (dim s) (dphi q i)).
  { unfold stress_form. rewrite T0.
    assert (C0 : contract (dim s) (eps_sym (eval_gradient s q (fun _ => 0))) (eps_sym (dphi q i)) = 0).
    { unfold contract, eps_sym. apply sumn_zero; intros; apply sumn_zero; intros; rewrite !G0; field. }
    rewrite C0. ring. }
  rewrite S0. unfold trace. 
  assert (Z : (if is_stokes_type (s_type s) then 0 else sumn (dim s) (fun d => (rho q * inertia s q (eval_value s q (fun _ => 0)) (eval_gradient s q (fun _ => 0)) d - damping q * eval_value s q (fun _ => 0) d) * phi q i d)) = 0).
  { destruct (is_stokes_type (s_type s)); [reflexivity|]. apply sumn_zero. intros d _. rewrite I0, V0. ring. }
  rewrite Z. ring.
Qed.
Print Assumptions C88_virtual_work.
Print Assumptions C88_constrained_rows.
Print Assumptions C88_fresh.
Print Assumptions C88_equilibrium.
(** one cell [0,1] with linear velocity in one dimension, wall on the left, open on the right, pressure 5 *)
Definition ex_set : setting := MkSetting 1 2 1 (fun i => Nat.eqb i 0) (fun _ => false) incompressible coupled_implicit_newton 0 2 (-2) 0 1 1 0 0.
Definition ex_q : qpoint := MkPoint 1 (fun _ _ => 1/2) (fun i _ _ => if Nat.eqb i 0 then -1 else 1) (fun _ => 1) 3 1 0 (fun _ => 0) (fun _ _ => 0) (fun _ => 0) (fun _ _ => 0).
Definition ex_open : nat -> option (R -> R -> R) := fun id => if Nat.eqb id 1 then Some (fun t x => 5) else None.
Definition ex_faces : list (oface R) :=
  [MkOFace 0 2 (fun a => a) [MkFQ 1 (fun _ => -1) 0 (fun a _ => if Nat.eqb a 0 then 1 else 0)];
   MkOFace 1 2 (fun a => a) [MkFQ 1 (fun _ => 1) 1 (fun a _ => if Nat.eqb a 1 then 1 else 0)]].
Example C88_nonvacuous : let pts := [(ex_q, ((fun _ => 0), (fun _ _ => 0)) : stored)] in
  (forall q, In q (map fst pts) -> at_rest q /\ eval_pressure ex_set q (fun _ => 5) = 5) /\ divergence_theorem ex_set pts ex_open ex_faces 1 /\
  const_rhs 1 ex_open 7 (dirichlet_lines (constrained_u ex_set)) ex_faces (fun _ => 0) 1 = 5 /\
  fulfils (dirichlet_lines (constrained_u ex_set)) (fun i => INR i).
Proof.
  cbv zeta. split; [|split; [|split]].
  - intros q [<-|[]]. split; [split; intros; split; reflexivity|]. unfold eval_pressure. cbn. lra.
  - unfold divergence_theorem. cbn. lra.
  - unfold const_rhs, face_rhs, cell_rhs, expand, dirichlet_lines. cbn. lra.
  - intros [|i] l H; cbn in H; [injection H as <-; reflexivity|discriminate].
Qed.
