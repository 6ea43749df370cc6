(** * Property theorems C80: which cells are refined and coarsened *)
From Coq Require Import ZArith QArith Reals Bool List Lia Lra.
From Verif Require Import Num Model_Refinement Model_RefinementIndicator Properties_Refinement.
Import ListNotations.
Open Scope R_scope.

(** ** Specification *)
(** the largest length of the normal in the cell *)
Definition is_largest (grads : list (list R)) (m : R) : Prop :=
  (forall g, In g grads -> sqrt (tdot g g) <= m) /\ exists g, In g grads /\ sqrt (tdot g g) = m.
Definition refined {N : Num} (c : cell N) : Prop := refine_flag (c_flags c) = true.
Definition coarsened {N : Num} (c : cell N) : Prop := coarsen_flag (c_flags c) = true.

(** ** Auxiliary *)
Lemma tdot_self_nonneg u : 0 <= tdot u u.
Proof. induction u as [|x u IH]; cbn; nra. Qed.
Lemma largest_spec grads a : 
  let m := fold_left (fun m g => nmax (N:=RNum) m (tnorm g)) grads a in
  a <= m /\ (forall g, In g grads -> tnorm g <= m) /\ (m = a \/ exists g, In g grads /\ tnorm g = m).
Proof.
  revert a; induction grads as [|g grads IH]; intros a; cbn [fold_left].
  - split; [lra|]. split; [intros g []|auto].
  - destruct (IH (nmax (N:=RNum) a (tnorm g))) as (H1 & H2 & H3). cbv zeta in *.
    assert (K : a <= nmax (N:=RNum) a (tnorm g) /\ tnorm g <= nmax (N:=RNum) a (tnorm g) /\ (nmax (N:=RNum) a (tnorm g) = a \/ nmax (N:=RNum) a (tnorm g) = tnorm g)).
    { unfold nmax. rnum. destruct (Rltb_spec a (tnorm g)); repeat split; try lra; auto. }
    destruct K as (K1 & K2 & K3). split; [lra|]. split.
    + intros g0 [<-|I]; [lra|auto].
    + destruct H3 as [E|(g0 & I & E)]; [|right; exists g0; split; [right|]; auto].
      destruct K3 as [K3|K3]; [left; etransitivity; eauto|right; exists g; split; [left; auto|]]. etransitivity; [symmetry; exact K3|symmetry; exact E].
Qed.
Lemma largest_is grads m : is_largest grads m -> largest grads = m.
Proof.
  intros [H (g & I & E)]. destruct (largest_spec grads 0) as (H1 & H2 & H3). fold (largest grads) in *. cbv zeta in *.
  apply Rle_antisym.
  - destruct H3 as [->|(g0 & I0 & <-)]; [rewrite <- E; apply sqrt_pos|apply H, I0].
  - rewrite <- E. apply (H2 g I).
Qed.
Lemma max_dist_spec (vs : list R) :
  let m := max_distance (N:=RNum) vs in
  0 <= m /\ (forall v, In v vs -> Rabs (1 - v * v) <= m) /\ (m = 0 \/ exists v, In v vs /\ Rabs (1 - v * v) = m).
Proof.
  unfold max_distance. rnum. replace (Q2R (1#1)) with 1 by (unfold Q2R; cbn; lra). replace (Q2R (0#1)) with 0 by (unfold Q2R; cbn; lra).
  cut (forall a, let m := fold_left (fun m v : R => nmax (N:=RNum) m (Rabs (1 - v * v))) vs a in
    a <= m /\ (forall v, In v vs -> Rabs (1 - v * v) <= m) /\ (m = a \/ exists v, In v vs /\ Rabs (1 - v * v) = m)); [intros K; exact (K 0)|].
  induction vs as [|v vs IH]; intros a; cbn [fold_left].
  - split; [lra|]. split; [intros v []|auto].
  - destruct (IH (nmax (N:=RNum) a (Rabs (1 - v * v)))) as (H1 & H2 & H3). cbv zeta in *.
    assert (K : a <= nmax (N:=RNum) a (Rabs (1 - v * v)) /\ Rabs (1 - v * v) <= nmax (N:=RNum) a (Rabs (1 - v * v)) /\ (nmax (N:=RNum) a (Rabs (1 - v * v)) = a \/ nmax (N:=RNum) a (Rabs (1 - v * v)) = Rabs (1 - v * v))).
    { unfold nmax. rnum. destruct (Rltb_spec a (Rabs (1 - v * v))); repeat split; try lra; auto. }
    destruct K as (K1 & K2 & K3). split; [lra|]. split.
    + intros g0 [<-|I]; [lra|auto].
    + destruct H3 as [E|(g0 & I & E)]; [|right; exists g0; split; [right|]; auto].
      destruct K3 as [K3|K3]; [left; etransitivity; eauto|right; exists v; split; [left; auto|]]. etransitivity; [symmetry; exact K3|symmetry; exact E].
Qed.

(** ** The phase field solver refines where the concentration is away from +-1 and coarsens where it is close to it *)
Theorem C80_phase_field : forall lower upper (c : cell RNum),
  let c' := fst (mark_phase_field_cell lower upper c) in
  (refined c' <-> (c_level c < upper)%Z /\ exists v : R, In v (c_values c) /\ Rabs (1 - v * v) > 1/100) /\
  (coarsened c' <-> (lower < c_level c)%Z /\ forall v : R, In v (c_values c) -> Rabs (1 - v * v) < 1/100).
Proof.
  intros lower upper c. cbv zeta. unfold mark_phase_field_cell. cbv zeta.
  destruct (max_dist_spec (c_values c)) as (H1 & H2 & H3). cbv zeta in *. set (d := max_distance (c_values c)) in *. clearbody d.
  unfold ngtb. rnum. replace (Q2R (1#100)) with (1/100) by (unfold Q2R; cbn; lra).
  assert (X : (exists v : R, In v (c_values c) /\ Rabs (1 - v * v) > 1/100) <-> 1/100 < d).
  { split; [intros (v & I & K); specialize (H2 v I); lra|]. intros L. destruct H3 as [E|(v & I & E)]; [lra|]. exists v. split; [auto|lra]. }
  assert (Y : (forall v : R, In v (c_values c) -> Rabs (1 - v * v) < 1/100) <-> d < 1/100).
  { split; [intros K; destruct H3 as [E|(v & I & E)]; [lra|specialize (K v I); lra]|]. intros L v I. specialize (H2 v I). lra. }
  rewrite X, Y. clear X Y. unfold refined, coarsened.
  destruct (Z.ltb_spec (c_level c) upper), (Z.ltb_spec lower (c_level c)), (Rltb_spec (1/100) d), (Rltb_spec d (1/100));
    cbn; (split; split; [intros E|intros [E1 E2]|intros E|intros [E1 E2]]); try discriminate; try (split; [lia|lra]); try lia; try lra; auto.
Qed.
Print Assumptions C80_phase_field.
(** ** The base class refines interior cells with large and coarsens cells with small indicator *)
Theorem C80_two_phase : forall lower upper h_to_3 (c : cell RNum), 0 <= h_to_3 ->
  let c' := fst (mark_two_phase_cell (N:=RNum) lower upper h_to_3 c) in
  (refined c' <-> (c_level c < upper)%Z /\ c_error c > 3/10 * h_to_3 /\ ~ In true (c_boundary c)) /\
  (coarsened c' <-> (lower < c_level c)%Z /\ c_error c < 1/10 * h_to_3).
Proof.
  intros lower upper h c Hh. cbv zeta. unfold mark_two_phase_cell. cbv zeta. unfold ngtb. rnum.
  replace (Q2R (3#10)) with (3/10) by (unfold Q2R; cbn; lra). replace (Q2R (1#10)) with (1/10) by (unfold Q2R; cbn; lra).
  assert (B : forall l r, fold_left (fun r at_boundary : bool => if at_boundary then false else r) l r = true <-> r = true /\ ~ In true l).
  { induction l as [|b l IH]; intros r; cbn [fold_left In]; [tauto|]. rewrite IH. destruct b; [|intuition discriminate].
    split; [intros [E _]; discriminate|intros [_ E]; tauto]. }
  assert (e : exists e : R, c_error c = e) by eauto. destruct e as [e He]. rewrite He in *. clear He.
  specialize (B (c_boundary c) ((c_level c <? upper)%Z && Rltb (3/10 * h) e)%bool).
  rewrite andb_true_iff, Z.ltb_lt, Rltb_true in B. unfold refined, coarsened.
  destruct (fold_left _ _ _) eqn:E.
  - destruct B as [B _]. destruct (B eq_refl) as ((B1 & B2) & B3). cbn. split; split; auto; [discriminate|]. intros [_ L]. exfalso. nra.
  - assert (K : ~ (((c_level c < upper)%Z /\ 3/10 * h < e) /\ ~ In true (c_boundary c))) by (intros X; apply B in X; discriminate).
    destruct (Z.ltb_spec lower (c_level c)), (Rltb_spec e (1/10 * h)); cbn; (split; split; [intros X|intros X|intros X|intros X]); try discriminate; try tauto; try lia; try lra;
    try (split; [lia|lra]); destruct X; try lia; lra.
Qed.
Print Assumptions C80_two_phase.
(** With the same indicator no cell is refined on one level and coarsened on another: the mesh does not oscillate. *)
Theorem C80_no_oscillation : forall lower upper h_to_3 (c d : cell RNum), 0 <= h_to_3 ->
  (c_values c = c_values d -> ~ (refined (fst (mark_phase_field_cell lower upper c)) /\ coarsened (fst (mark_phase_field_cell lower upper d)))) /\
  (c_error c = c_error d -> ~ (refined (fst (mark_two_phase_cell (N:=RNum) lower upper h_to_3 c)) /\ coarsened (fst (mark_two_phase_cell (N:=RNum) lower upper h_to_3 d)))).
Proof.
  intros lower upper h c d Hh. split; intros E [A B].
  - apply (proj1 (C80_phase_field lower upper c)) in A. apply (proj2 (C80_phase_field lower upper d)) in B.
    destruct A as (_ & v & I & L), B as [_ B]. rewrite E in I. specialize (B v I). rnum. lra.
  - apply (proj1 (C80_two_phase lower upper h c Hh)) in A. apply (proj2 (C80_two_phase lower upper h d Hh)) in B.
    rewrite E in A. destruct A as (_ & A & _), B as [_ B]. rnum. lra.
Qed.
Print Assumptions C80_no_oscillation.

(** ** The level set solvers *)
Lemma ltb_exp t x : 0 < x -> (t < ln x <-> exp t < x).
Proof.
  intros H. rewrite <- (exp_ln x) at 2 by auto. split; [apply exp_increasing|apply exp_lt_inv].
Qed.
Lemma gtb_exp t x : 0 < x -> (ln x < t <-> x < exp t).
Proof.
  intros H. rewrite <- (exp_ln x) at 2 by auto. split; [apply exp_increasing|apply exp_lt_inv].
Qed.
(** Logarithmic closeness to the interface D and look-ahead A (with normal of the last, velocity and level set of the first point). *)
Theorem C80_level_set : forall lower upper level f epsilon dt (grads : list (list R)) u0 ls0 m,
  0 < epsilon -> is_largest grads m -> 0 < m -> sqrt (tdot (last grads []) (last grads [])) <> 0 ->
  let c' := mark_level_set_cell lower upper (indicator_cell level f epsilon dt (MkData grads u0 ls0)) in
  let D := ln (m * epsilon) in
  let A := 4 * dt * tdot (last grads []) u0 / sqrt (tdot (last grads []) (last grads [])) / epsilon * ls0 in
  (refined c' <-> (level < upper)%Z /\ (D + A > -7 \/ D > -4)) /\
  (coarsened c' <-> (lower < level)%Z /\ ~ refined c' /\ (D + A < -8 \/ D < -5)).
Proof.
  intros lower upper level f eps dt grads u0 ls0 m He Hm Hp Hl. cbv zeta.
  unfold mark_level_set_cell, indicator_cell. cbn [c_level c_distance c_mod_distance].
  unfold mod_distance, distance. cbn [id_gradients id_velocity_0 id_level_set_0]. cbv zeta. rewrite (largest_is _ _ Hm).
  assert (0 < m * eps) by nra. unfold elog. destruct (Rltb_spec 0 (m * eps)) as [_|X]; [|lra].
  unfold tnorm. unfold ediv. destruct (Reqb_spec (sqrt (tdot (last grads []) (last grads []))) 0) as [X|_]; [contradiction|].
  destruct (Reqb_spec eps 0) as [X|_]; [lra|]. cbn [emul eadd].
  set (D := ln (m * eps)). set (A := _ * ls0). clearbody D A. unfold ngtb. cbn [nltb ENum nlit eltb].
  replace (Q2R (-7#1)) with (-7) by (unfold Q2R; cbn; lra). replace (Q2R (-8#1)) with (-8) by (unfold Q2R; cbn; lra).
  replace (Q2R (-5#1)) with (-5) by (unfold Q2R; cbn; lra). replace (Q2R (-4#1)) with (-4) by (unfold Q2R; cbn; lra).
  unfold refined, coarsened.
  destruct (Z.ltb_spec level upper), (Z.ltb_spec lower level), (Rltb_spec (-7) (D + A)), (Rltb_spec (-4) D), (Rltb_spec (D + A) (-8)), (Rltb_spec D (-5));
    cbn; (split; split; intros X); try discriminate; try lra; try (split; [lia|]); try (split; [discriminate|]); try lra; auto;
    try (exfalso; destruct X as (X1 & X2 & X3); try lia; try lra; apply X2; reflexivity); exfalso; destruct X as (X1 & X2); try lia; try lra.
Qed.
Print Assumptions C80_level_set.
(** In a fluid at rest: refined where the normal is longer than e^-7/epsilon, coarsened (if it could not be refined) where shorter than e^-5/epsilon. *)
Theorem C80_level_set_at_rest : forall lower upper level f epsilon dt (grads : list (list R)) u0 ls0 m,
  0 < epsilon -> is_largest grads m -> 0 < m -> sqrt (tdot (last grads []) (last grads [])) <> 0 -> tdot (last grads []) u0 = 0 ->
  let c' := mark_level_set_cell lower upper (indicator_cell level f epsilon dt (MkData grads u0 ls0)) in
  (refined c' <-> (level < upper)%Z /\ m * epsilon > exp (-7)) /\
  (coarsened c' <-> (lower < level)%Z /\ ~ refined c' /\ m * epsilon < exp (-5)).
Proof.
  intros lower upper level f eps dt grads u0 ls0 m He Hm Hp Hl Hu. cbv zeta.
  destruct (C80_level_set lower upper level f eps dt grads u0 ls0 m He Hm Hp Hl) as [R C]. cbv zeta in R, C. rewrite Hu in R, C.
  assert (P : 0 < m * eps) by nra.
  pose proof (ltb_exp (-7) _ P) as L. pose proof (gtb_exp (-5) _ P) as G. 
  replace (4 * dt * 0 / sqrt (tdot (last grads []) (last grads [])) / eps * ls0) with 0 in * by (field; split; lra).
  rewrite Rplus_0_r in *. split.
  - rewrite R. split; intros [X Y]; (split; [auto|]); [apply L; lra|left; apply L in Y; lra].
  - rewrite C. split; intros (X & Y & Z); (split; [auto|]; split; [auto|]); [apply G; lra|right; apply G; lra].
Qed.
Print Assumptions C80_level_set_at_rest.
(** Violation: between these bounds the same cell in a fluid at rest is refined and, on the finest level, coarsened again. *)
Theorem C80_violation_oscillation : forall lower upper f epsilon dt (grads : list (list R)) u0 ls0 m,
  (lower < upper)%Z -> 0 < epsilon -> is_largest grads m -> 0 < m -> sqrt (tdot (last grads []) (last grads [])) <> 0 -> tdot (last grads []) u0 = 0 ->
  exp (-7) < m * epsilon < exp (-5) ->
  forall level, (level < upper)%Z ->
  refined (mark_level_set_cell lower upper (indicator_cell level f epsilon dt (MkData grads u0 ls0))) /\
  coarsened (mark_level_set_cell lower upper (indicator_cell upper f epsilon dt (MkData grads u0 ls0))).
Proof.
  intros lower upper f eps dt grads u0 ls0 m Hlu He Hm Hp Hl Hu [B1 B2] level L. split.
  - apply (C80_level_set_at_rest lower upper level f eps dt grads u0 ls0 m); auto.
  - destruct (C80_level_set_at_rest lower upper upper f eps dt grads u0 ls0 m) as [R C]; auto. apply C. split; [auto|]. split; [|auto].
    intros X. apply R in X as [X _]. lia.
Qed.
Print Assumptions C80_violation_oscillation.
Example C80_nonvacuous : let g := exp (-6) in
  is_largest [[g; 0]; [0; g]] g /\ 0 < g /\ sqrt (tdot (last [[g; 0]; [0; g]] []) (last [[g; 0]; [0; g]] [])) <> 0 /\ exp (-7) < g * 1 < exp (-5).
Proof.
  cbv zeta. assert (P := exp_pos (-6)). assert (E : sqrt (exp (-6) * exp (-6)) = exp (-6)) by (apply sqrt_square; lra).
  repeat split; auto.
  - intros g [<-|[<-|[]]]; cbn; rewrite ?Rmult_0_l, ?Rplus_0_l, ?Rplus_0_r, ?Rmult_0_l, E; lra.
  - exists [exp (-6); 0]. split; [left; auto|]. cbn. rewrite Rmult_0_l, !Rplus_0_r. exact E.
  - cbn. rewrite Rmult_0_l, Rplus_0_l, Rplus_0_r, E. lra.
  - rewrite Rmult_1_r. apply exp_increasing; lra.
  - rewrite Rmult_1_r. apply exp_increasing; lra.
Qed.
(** Violation: the decision depends on the numbering of the points inside the cell (the normal is taken from the last point): the
    same field on a cell with other vertex order is refined or coarsened. *)
Theorem C80_violation_vertex_order : exists (grads grads' : list (list R)) lower upper level,
  (forall g, In g grads <-> In g grads') /\
  forall f dt u0 ls0, u0 = [0] ->
  refined (mark_level_set_cell lower upper (indicator_cell level f 1 dt (MkData grads u0 ls0))) /\
  coarsened (mark_level_set_cell lower upper (indicator_cell level f 1 dt (MkData grads' u0 ls0))).
Proof.
  exists [[0]; [exp (-6)]], [[exp (-6)]; [0]], 0%Z, 2%Z, 1%Z. split; [intros g; cbn; tauto|]. intros f dt u0 ls0 ->.
  assert (P := exp_pos (-6)). assert (E : sqrt (exp (-6) * exp (-6)) = exp (-6)) by (apply sqrt_square; lra).
  assert (M : is_largest [[0]; [exp (-6)]] (exp (-6))).
  { split; [intros g [<-|[<-|[]]]; cbn|exists [exp (-6)]; split; [right; left; auto|cbn; rewrite Rplus_0_r; auto]].
    - rewrite Rmult_0_l, Rplus_0_l, sqrt_0. lra.
    - rewrite Rplus_0_r, E. lra. }
  split.
  - apply (C80_level_set_at_rest 0 2 1 f 1 dt _ _ ls0 (exp (-6))); auto; try lra.
    + cbn. rewrite Rplus_0_r, E. lra.
    + cbn. ring.
    + split; [lia|]. rewrite Rmult_1_r. apply exp_increasing. lra.
  - assert (M' : largest [[exp (-6)]; [0]] = exp (-6)).
    { apply largest_is. split; [|exists [exp (-6)]; split; [left; auto|cbn; rewrite Rplus_0_r; auto]].
      intros g I. apply (proj1 M). cbn in *. tauto. }
    unfold mark_level_set_cell, indicator_cell. cbn [c_level c_distance c_mod_distance].
    unfold mod_distance, distance. cbn [id_gradients id_velocity_0 id_level_set_0 last tdot]. cbv zeta. rewrite M', Rmult_1_r.
    unfold elog. destruct (Rltb_spec 0 (exp (-6))) as [_|X]; [|lra]. rewrite ln_exp.
    unfold tnorm. cbn [tdot]. replace (0 * 0 + 0) with 0 by ring. rewrite sqrt_0. unfold ediv.
    destruct (Reqb_spec 0 0) as [_|X]; [|lra]. replace (4 * dt * 0) with 0 by ring. unfold einf. destruct (Rltb_spec 0 0) as [X|_]; [lra|].
    cbn [emul eadd]. unfold ngtb. cbn [nltb ENum nlit eltb].
    replace (Q2R (-5#1)) with (-5) by (unfold Q2R; cbn; lra). replace (Q2R (-4#1)) with (-4) by (unfold Q2R; cbn; lra).
    destruct (Rltb_spec (-4) (-6)) as [X|_]; [lra|]. destruct (Rltb_spec (-6) (-5)) as [_|X]; [|lra]. reflexivity.
Qed.
Print Assumptions C80_violation_vertex_order.
(** Where there is no normal at all (far from the interface) a cell is never refined and is coarsened down to the lowest level. *)
Theorem C80_level_set_far : forall lower upper level f epsilon dt (grads : list (list R)) u0 ls0, 0 < epsilon ->
  (forall g, In g grads -> sqrt (tdot g g) = 0) ->
  let c' := mark_level_set_cell lower upper (indicator_cell level f epsilon dt (MkData grads u0 ls0)) in
  (~ refined c') /\ (coarsened c' <-> (lower < level)%Z).
Proof.
  intros lower upper level f eps dt grads u0 ls0 He H. cbv zeta.
  assert (L : largest grads = 0).
  { destruct (largest_spec grads 0) as (_ & _ & [E|(g & I & E)]); [exact E|]. cbv zeta in *. unfold largest. rewrite <- E. apply (H g I). }
  assert (G : tdot (last grads []) (last grads []) = 0).
  { assert (K : In (last grads []) grads \/ last grads [] = []).
    { clear. induction grads as [|g gs IH]; [auto|]. destruct gs as [|g' gs]; [left; left; auto|].
      destruct IH as [I|I]; [left; right; exact I|right; exact I]. }
    destruct K as [K|K]; [apply sqrt_eq_0; [apply tdot_self_nonneg|auto]|rewrite K; reflexivity]. }
  assert (Z : forall g, tdot g g = 0 -> forall u, tdot g u = 0).
  { clear. induction g as [|x g IH]; intros E [|y u]; cbn in *; auto. pose proof (tdot_self_nonneg g).
    assert (x = 0) by nra. assert (tdot g g = 0) by nra. rewrite IH by auto. subst x. ring. }
  unfold mark_level_set_cell, indicator_cell. cbn [c_level c_distance c_mod_distance].
  unfold mod_distance, distance. cbn [id_gradients id_velocity_0 id_level_set_0]. cbv zeta. rewrite L, Rmult_0_l.
  unfold tnorm. rewrite G, sqrt_0, (Z _ G). unfold elog, ediv, einf.
  replace (4 * dt * 0) with 0 by ring. destruct (Reqb_spec 0 0) as [_|X]; [|lra]. destruct (Rltb_spec 0 0) as [X|_]; [lra|].
  cbn [emul eadd]. unfold ngtb. cbn [nltb ENum nlit eltb orb]. unfold refined, coarsened.
  rewrite andb_false_r. destruct (Z.ltb_spec lower level); cbn; split; try discriminate; split; intros; auto; try discriminate; lia.
Qed.
Print Assumptions C80_level_set_far.
(** ** The whole mesh *)
(** Is the mesh to be changed?  If some cell on some process may still be refined and is closer than e^-3.5, or, before the first step,
    may be coarsened and is farther than e^-8; then every cell of every process gets the flags of the criterion above. *)
Theorem C80_level_set_mesh : forall (N : Num) adaptive lower step_no (mesh : list (rank N)), adaptive <> 0%Z ->
  let '(mesh', answers) := mark_level_set adaptive lower step_no mesh in
  (forall a, In a answers -> (a = true <-> exists c, In c (concat mesh) /\
     (((c_level c < lower + adaptive)%Z /\ ngtb (c_distance c) (nlit (-35#10)) = true) \/
      (step_no = 0%Z /\ (lower < c_level c)%Z /\ nltb (c_distance c) (nlit (-8#1)) = true)))) /\
  (In true answers -> Forall2 (Forall2 (fun c' c => c_flags c' = c_flags (mark_level_set_cell lower (lower + adaptive) c))) mesh' mesh).
Proof.
  intros N adaptive lower no mesh Ha. unfold mark_level_set. destruct (Z.eqb_spec adaptive 0) as [X|_]; [contradiction|]. cbv zeta.
  rewrite mpi_or_spec, (Z.add_comm lower adaptive). set (up := (adaptive + lower)%Z).
  assert (A : existsb (fun b => b) (map snd (map (probe lower up no) mesh)) = true <-> exists c, In c (concat mesh) /\
     (((c_level c < up)%Z /\ ngtb (c_distance c) (nlit (-35#10)) = true) \/ (no = 0%Z /\ (lower < c_level c)%Z /\ nltb (c_distance c) (nlit (-8#1)) = true))).
  { rewrite existsb_exists. split.
    - intros (b & I & ->). apply in_map_iff in I as (y & Ey & I). apply in_map_iff in I as (x & <- & I).
      destruct (probe_spec lower up no x) as (_ & P & _). rewrite P in Ey. apply existsb_exists in Ey as (c & Ic & Pc).
      exists c. split; [apply in_concat; eauto|]. unfold probe_cell in Pc.
      rewrite orb_true_iff, !andb_true_iff, !Z.ltb_lt, Z.eqb_eq in Pc. tauto.
    - intros (c & I & K). apply in_concat in I as (x & I & Ic). exists true. split; [|auto].
      apply in_map_iff. exists (probe lower up no x). split; [|apply in_map; auto].
      destruct (probe_spec lower up no x) as (_ & P & _). rewrite P. apply existsb_exists. exists c. split; [auto|].
      unfold probe_cell. rewrite orb_true_iff, !andb_true_iff, !Z.ltb_lt, Z.eqb_eq. tauto. }
  destruct (existsb (fun b => b) (map snd (map (probe lower up no) mesh))) eqn:E; cbn [negb].
  - split; [intros a I; apply in_map_iff in I as (_ & <- & _); split; [intros _; apply A; auto|auto]|].
    intros _. clear A E. induction mesh as [|r mesh IH]; cbn [map]; constructor; auto.
    destruct (probe_spec lower up no r) as (P & _ & _). revert P. generalize (fst (probe lower up no r)). intros r' P.
    induction P as [|c' c r1 r2 S P IHP]; cbn [map]; constructor; auto. rewrite S.
    unfold mark_level_set_cell. cbn [c_level c_distance c_mod_distance with_flags]. repeat (destruct (_ && _)); reflexivity.
  - split; [intros a I; apply in_map_iff in I as (_ & <- & _); split; [discriminate|intros K; apply A in K; discriminate]|].
    intros I. apply in_map_iff in I as (_ & I & _). discriminate.
Qed.
Print Assumptions C80_level_set_mesh.
(** The other two: every fifth step (including step 0) every cell gets the flags of its criterion; in between nothing is touched. *)
Theorem C80_other_solvers_mesh : forall (N : Num) adaptive lower step_no (h_to_3 : N) (mesh : list (rank N)), adaptive <> 0%Z ->
  (forall k, step_no = (5 * k)%Z ->
     Forall2 (Forall2 (fun c' c => c' = fst (mark_two_phase_cell lower (lower + adaptive) h_to_3 c))) (fst (mark_two_phase adaptive lower step_no h_to_3 mesh)) mesh /\
     Forall2 (Forall2 (fun c' c => c' = fst (mark_phase_field_cell lower (lower + adaptive) c))) (fst (mark_phase_field adaptive lower step_no mesh)) mesh) /\
  ((forall k, step_no <> (5 * k)%Z) -> mark_two_phase adaptive lower step_no h_to_3 mesh = (mesh, map (fun _ => false) mesh) /\
                                mark_phase_field adaptive lower step_no mesh = (mesh, map (fun _ => false) mesh)).
Proof.
  intros N adaptive lower no h mesh Ha.
  assert (L : forall (f : cell N -> cell N * bool) r, Forall2 (fun c' c => c' = fst (f c)) (fst (mark_loop f r)) r).
  { intros f r. induction r as [|c r IH]; [constructor|]. rewrite mark_loop_cons. cbn [fst]. constructor; auto. }
  assert (M : forall (f : cell N -> cell N * bool) m, Forall2 (Forall2 (fun c' c => c' = fst (f c))) (map fst (map (mark_loop f) m)) m).
  { intros f m. induction m as [|r m IH]; cbn [map]; constructor; auto. }
  unfold mark_two_phase, mark_phase_field. destruct (Z.eqb_spec adaptive 0) as [X|_]; [contradiction|]. cbn [orb].
  rewrite (Z.add_comm lower adaptive). split.
  - intros k ->. rewrite Z.mul_comm, Z.mod_mul by lia. cbn [Z.eqb negb]. split; apply M.
  - intros K. destruct (Z.eqb_spec (no mod 5) 0) as [E|E]; [|split; reflexivity].
    exfalso. apply (K (no / 5)%Z). pose proof (Z.div_mod no 5). lia.
Qed.
Print Assumptions C80_other_solvers_mesh.
