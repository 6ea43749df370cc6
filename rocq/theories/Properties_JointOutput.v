(** * C89: the output shows the computed fields; C90: writing output does not change the run *)
From Coq Require Import ZArith QArith Reals Bool List String Lia Lra.
From Verif Require Import Num Model_Refinement Model_RefinementIndicator Properties_RefinementIndicator Model_JointOutput Model_Bubble Properties_Bubble Model_Reinit Properties_Reinit.
Import Num.
Import ListNotations.
Open Scope nat_scope.

(** ** Contract of the numberings (deal.II): FESystem(fe_u,1, fe_p,1, fe,4, fe,dim) and DoFHandlers on the same mesh *)
Definition field_dof (h : handlers) (c : nat) (b : base_index) : nat :=
  match b_base b with 0 => h_vel h c (b_index b) | 1 => h_pre h c (b_index b) | _ => h_ls h c (b_index b) end.
Definition valid_system (dim : nat) (h : handlers) : Prop := forall i, i < h_joint_per_cell h ->
  let b := h_system h i in
  (b_base b = 0 /\ b_copy b = 0) \/ (b_base b = 1 /\ b_copy b = 0) \/
  (b_base b = 2 /\ b_copy b < 4 /\ b_index b < h_ls_per_cell h) \/ (b_base b = 3 /\ b_copy b < dim /\ b_index b < h_ls_per_cell h).
(** two cells that share a joint unknown share the unknown of the underlying field, and every joint unknown touches a cell of
    the process owning it *)
Definition valid_numbering (h : handlers) : Prop :=
  (forall c i c' i', In c (h_cells h) -> In c' (h_cells h) -> i < h_joint_per_cell h -> i' < h_joint_per_cell h ->
     h_joint h c i = h_joint h c' i' ->
     b_base (h_system h i) = b_base (h_system h i') /\ b_copy (h_system h i) = b_copy (h_system h i') /\
     field_dof h c (h_system h i) = field_dof h c' (h_system h i')) /\
  (forall c i, In c (h_cells h) -> i < h_joint_per_cell h -> exists c' i', In c' (h_cells h) /\ i' < h_joint_per_cell h /\
     h_joint h c' i' = h_joint h c i /\ h_subdomain h c' = h_joint_owner h (h_joint h c i)).
(** number of the vector component a local unknown belongs to; [vcomp] is the velocity component within fe_u *)
Definition component (dim : nat) (vcomp : nat -> nat) (b : base_index) : nat :=
  match b_base b with 0 => vcomp (b_index b) | 1 => dim | 2 => dim + 1 + b_copy b | _ => dim + 5 + b_copy b end.

Lemma nth_repeat_lt {A} (a d : A) n k : k < n -> nth k (repeat a n) d = a.
Proof. revert k. induction n as [|n IH]; intros [|k] H; cbn; try lia; [reflexivity|apply IH; lia]. Qed.
Section Writes.
Context (h : handlers) (F : fields) (p j : nat) (x : R).
Definition step_i (cell : nat) (v : nat -> R) (i : nat) : nat -> R :=
  if Nat.eqb (h_joint_owner h (h_joint h cell i)) p
  then match joint_value h F cell i with Some x => write v (h_joint h cell i) x | None => v end else v.
Definition step_c (v : nat -> R) (cell : nat) : nat -> R := if Nat.eqb (h_subdomain h cell) p then joint_cell h F p cell v else v.
Context (cs : list nat).
Hypothesis all_same : forall c i, In c cs -> i < h_joint_per_cell h -> h_subdomain h c = p -> h_joint h c i = j -> joint_value h F c i = Some x.
Lemma keep_i c is v : In c cs -> h_subdomain h c = p -> (forall i, In i is -> i < h_joint_per_cell h) -> v j = x -> fold_left (step_i c) is v j = x.
Proof.
  intros Hc Hs. revert v. induction is as [|i is IH]; intros v Hi Hv; cbn [fold_left]; [exact Hv|]. apply IH; [intros; apply Hi; right; assumption|].
  unfold step_i. destruct (Nat.eqb _ p); [|exact Hv]. destruct (joint_value h F c i) as [y|] eqn:E; [|exact Hv]. unfold write.
  destruct (Nat.eqb j (h_joint h c i)) eqn:Ej; [|exact Hv]. apply Nat.eqb_eq in Ej. symmetry in Ej.
  rewrite (all_same c i Hc (Hi i (or_introl eq_refl)) Hs Ej) in E. congruence.
Qed.
Lemma keep_c cs' v : (forall c, In c cs' -> In c cs) -> v j = x -> fold_left step_c cs' v j = x.
Proof.
  revert v. induction cs' as [|c cs' IH]; intros v Hc Hv; cbn [fold_left]; [exact Hv|]. apply IH; [intros; apply Hc; right; assumption|].
  unfold step_c. destruct (Nat.eqb (h_subdomain h c) p) eqn:E; [|exact Hv]. apply Nat.eqb_eq in E.
  apply (keep_i c); [apply Hc; left; reflexivity|exact E|intros i Hi; apply in_seq in Hi; lia|exact Hv].
Qed.
Lemma written c i v : In c cs -> i < h_joint_per_cell h -> h_subdomain h c = p -> h_joint h c i = j -> h_joint_owner h j = p ->
  fold_left step_c cs v j = x.
Proof.
  intros Hc Hi Hs Hj Ho. destruct (in_split _ _ Hc) as (l1 & l2 & E). pose proof all_same as AS. rewrite E at 1. rewrite fold_left_app. cbn [fold_left].
  apply keep_c; [intros c' Hc'; rewrite E; apply in_or_app; right; right; exact Hc'|].
  unfold step_c at 1. rewrite (proj2 (Nat.eqb_eq _ _) Hs). unfold joint_cell. fold (step_i c).
  assert (Hin : In i (seq 0 (h_joint_per_cell h))) by (apply in_seq; lia).
  destruct (in_split _ _ Hin) as (m1 & m2 & Em). rewrite Em. rewrite fold_left_app. cbn [fold_left].
  apply (keep_i c); [exact Hc|exact Hs| |].
  - intros k Hk. assert (In k (seq 0 (h_joint_per_cell h))) by (rewrite Em; apply in_or_app; right; right; exact Hk). apply in_seq in H. lia.
  - unfold step_i at 1. rewrite Hj, (proj2 (Nat.eqb_eq _ _) Ho), (AS c i Hc Hi Hs Hj). unfold write. rewrite Nat.eqb_refl. reflexivity.
Qed.
End Writes.

Lemma joint_at dim h F c i x : valid_system dim h -> valid_numbering h -> In c (h_cells h) -> i < h_joint_per_cell h ->
  (forall c' i', In c' (h_cells h) -> i' < h_joint_per_cell h -> h_joint h c' i' = h_joint h c i -> h_subdomain h c' = h_joint_owner h (h_joint h c i) ->
     joint_value h F c' i' = Some x) ->
  joint_solution h F (h_joint h c i) = x.
Proof.
  intros Hs [H1 H2] Hc Hi Hx. destruct (H2 c i Hc Hi) as (c' & i' & Hc' & Hi' & Hj & Ho).
  unfold joint_solution, joint_local. set (p := h_joint_owner h (h_joint h c i)) in *.
  apply (written h F p (h_joint h c i) x (h_cells h)) with (c := c') (i := i'); try assumption; try reflexivity.
  intros c1 i1 A B C D. apply (Hx c1 i1 A B D C).
Qed.

(** ** C89.  Every component of the joint vector is called by the name of the field whose values it holds, at every node of
    every cell; "owner" is the process that owns the node. *)
Theorem C89_fields : forall dim curvature_name h F vcomp c i,
  valid_system dim h -> valid_numbering h -> (forall l, vcomp l < dim) -> In c (h_cells h) -> i < h_joint_per_cell h ->
  let b := h_system h i in let k := component dim vcomp b in
  let name := nth k (joint_names dim curvature_name) ""%string in
  let value := joint_solution h F (h_joint h c i) in
  (k < dim -> name = "velocity"%string /\ value = f_velocity F (h_vel h c (b_index b))) /\
  (k = dim -> name = "pressure"%string /\ value = f_pressure F (h_pre h c (b_index b))) /\
  (k = dim + 1 -> name = "heaviside"%string /\ value = f_heaviside F (h_ls h c (b_index b))) /\
  (k = dim + 2 -> name = "level_set"%string /\ value = f_level_set F (h_ls h c (b_index b))) /\
  (k = dim + 3 -> name = curvature_name /\ value = f_curvature F (h_ls h c (b_index b))) /\
  (k = dim + 4 -> name = "owner"%string /\ value = INR (h_joint_owner h (h_joint h c i))) /\
  (forall d, k = dim + 5 + d -> d < dim /\ name = "normal_vector"%string /\ value = f_normal F d (h_ls h c (b_index b))) /\
  k < 2 * dim + 5.
Proof.
  intros dim cn h F vcomp c i Hs Hv Hvc Hc Hi. cbv zeta. pose proof Hv as [H1 H2].
  assert (N1 : forall k, k < dim -> nth k (joint_names dim cn) ""%string = "velocity"%string).
  { intros k Hk. unfold joint_names. rewrite app_nth1 by (rewrite repeat_length; exact Hk). apply nth_repeat_lt. exact Hk. }
  assert (N2 : forall k, k < 5 -> nth (dim + k) (joint_names dim cn) ""%string = nth k ["pressure"; "heaviside"; "level_set"; cn; "owner"]%string ""%string).
  { intros k Hk. unfold joint_names. rewrite app_nth2 by (rewrite repeat_length; lia). rewrite repeat_length. replace (dim + k - dim) with k by lia.
    rewrite app_nth1 by (cbn; lia). reflexivity. }
  assert (N3 : forall k, k < dim -> nth (dim + 5 + k) (joint_names dim cn) ""%string = "normal_vector"%string).
  { intros k Hk. unfold joint_names. rewrite app_nth2 by (rewrite repeat_length; lia). rewrite repeat_length. rewrite app_nth2 by (cbn; lia). cbn [List.length].
    replace (dim + 5 + k - dim - 5) with k by lia. apply nth_repeat_lt. exact Hk. }
  destruct (Hs i Hi) as [[Eb Ec]|[[Eb Ec]|[[Eb [Ec El]]|[Eb [Ec El]]]]]; unfold component; rewrite Eb.
  - pose proof (Hvc (b_index (h_system h i))) as L. split.
    + intros _. split; [apply N1; exact L|]. apply (joint_at dim); try assumption. intros c' i' A B D E. destruct (H1 c' i' c i A Hc B Hi D) as (P & Q & S').
      unfold joint_value. rewrite P, Eb, Q, Ec. cbn [Nat.eqb]. unfold field_dof in S'. rewrite P, Eb in S'. rewrite S'. reflexivity.
    + repeat (split; [intros; exfalso; lia|]). lia.
  - split; [intros; exfalso; lia|]. split.
    + intros _. split; [specialize (N2 0 ltac:(lia)); rewrite Nat.add_0_r in N2; exact N2|]. apply (joint_at dim); try assumption. intros c' i' A B D E. destruct (H1 c' i' c i A Hc B Hi D) as (P & Q & S').
      unfold joint_value. rewrite P, Eb. unfold field_dof in S'. rewrite P, Eb in S'. rewrite S'. reflexivity.
    + repeat (split; [intros; exfalso; lia|]). lia.
  - assert (V : forall c' i', In c' (h_cells h) -> i' < h_joint_per_cell h -> h_joint h c' i' = h_joint h c i ->
        b_base (h_system h i') = 2 /\ b_copy (h_system h i') = b_copy (h_system h i) /\
        h_ls h c' (b_index (h_system h i') mod h_ls_per_cell h) = h_ls h c (b_index (h_system h i))).
    { intros c' i' A B D. destruct (H1 c' i' c i A Hc B Hi D) as (P & Q & S'). rewrite P, Eb. split; [reflexivity|split; [exact Q|]].
      unfold field_dof in S'. rewrite P, Eb in S'. destruct (Hs i' B) as [[X _]|[[X _]|[[_ [_ X]]|[X _]]]]; try (rewrite P, Eb in X; discriminate). rewrite Nat.mod_small by exact X. exact S'. }
    split; [intros; exfalso; lia|]. split; [intros; exfalso; lia|].
    assert (G : b_copy (h_system h i) = 0 \/ b_copy (h_system h i) = 1 \/ b_copy (h_system h i) = 2 \/ b_copy (h_system h i) = 3) by lia.
    destruct G as [G|[G|[G|G]]]; rewrite G in *.
    + split; [intros _; split; [rewrite <- Nat.add_assoc; apply (N2 1); lia|apply (joint_at dim); try assumption; intros c' i' A B D E; destruct (V c' i' A B D) as (P & Q & S'); unfold joint_value; rewrite P, Q, S'; reflexivity]|].
      repeat (split; [intros; exfalso; lia|]). lia.
    + split; [intros; exfalso; lia|]. split; [intros _; split; [rewrite <- Nat.add_assoc; apply (N2 2); lia|apply (joint_at dim); try assumption; intros c' i' A B D E; destruct (V c' i' A B D) as (P & Q & S'); unfold joint_value; rewrite P, Q, S'; reflexivity]|].
      repeat (split; [intros; exfalso; lia|]). lia.
    + split; [intros; exfalso; lia|]. split; [intros; exfalso; lia|]. split; [intros _; split; [rewrite <- Nat.add_assoc; apply (N2 3); lia|apply (joint_at dim); try assumption; intros c' i' A B D E; destruct (V c' i' A B D) as (P & Q & S'); unfold joint_value; rewrite P, Q, S'; reflexivity]|].
      repeat (split; [intros; exfalso; lia|]). lia.
    + split; [intros; exfalso; lia|]. split; [intros; exfalso; lia|]. split; [intros; exfalso; lia|].
      split; [intros _; split; [rewrite <- Nat.add_assoc; apply (N2 4); lia|apply (joint_at dim); try assumption; intros c' i' A B D E; destruct (V c' i' A B D) as (P & Q & S'); unfold joint_value; rewrite P, Q, E; reflexivity]|].
      split; [intros; exfalso; lia|lia].
  - repeat (split; [intros; exfalso; lia|]). split; [|lia].
    intros d Hd. assert (d = b_copy (h_system h i)) by lia. subst d. split; [exact Ec|split; [apply N3; exact Ec|]].
    apply (joint_at dim); try assumption. intros c' i' A B D E. destruct (H1 c' i' c i A Hc B Hi D) as (P & Q & S').
    unfold joint_value. rewrite P, Eb, Q. unfold field_dof in S'. rewrite P, Eb in S'. destruct (Hs i' B) as [[X _]|[[X _]|[[X _]|[_ [_ X]]]]]; try (rewrite P, Eb in X; discriminate). rewrite Nat.mod_small by exact X. rewrite S'. reflexivity.
Qed.
Print Assumptions C89_fields.
(** the number of names is the number of components, and exactly velocity and normals are drawn as vectors *)
Theorem C89_names : forall dim curvature_name k, curvature_name <> "velocity"%string -> curvature_name <> "normal_vector"%string -> k < 2 * dim + 5 ->
  List.length (joint_names dim curvature_name) = 2 * dim + 5 /\ List.length (joint_is_vector dim) = 2 * dim + 5 /\
  (nth k (joint_is_vector dim) false = true <->
   nth k (joint_names dim curvature_name) ""%string = "velocity"%string \/ nth k (joint_names dim curvature_name) ""%string = "normal_vector"%string).
Proof.
  intros dim cn k C1 C2 Hk. split; [unfold joint_names; rewrite !app_length, !repeat_length; cbn; lia|].
  assert (L : List.length (joint_is_vector dim) = 2 * dim + 5) by (unfold joint_is_vector; rewrite map_length, seq_length; lia). split; [exact L|].
  assert (V : nth k (joint_is_vector dim) false = (Nat.ltb k dim || (Nat.leb (dim + 5) k && Nat.ltb k (2 * dim + 5)))).
  { unfold joint_is_vector. set (g := fun i => _). rewrite (nth_indep (map g (seq 0 (dim + 5 + dim))) false (g 0)) by (rewrite map_length, seq_length; lia).
    rewrite map_nth. rewrite seq_nth by lia. reflexivity. }
  rewrite V. unfold joint_names. destruct (Nat.ltb_spec k dim) as [H|H].
  - rewrite app_nth1 by (rewrite repeat_length; exact H). rewrite nth_repeat_lt by exact H. cbn. split; auto.
  - rewrite app_nth2 by (rewrite repeat_length; lia). rewrite repeat_length. destruct (Nat.leb_spec (dim + 5) k) as [G|G].
    + rewrite app_nth2 by (cbn; lia). cbn [List.length]. rewrite nth_repeat_lt by lia. destruct (Nat.ltb_spec k (2 * dim + 5)); [|lia]. cbn. split; auto.
    + rewrite app_nth1 by (cbn; lia). cbn [orb andb]. split; [discriminate|].
      assert (K : k - dim = 0 \/ k - dim = 1 \/ k - dim = 2 \/ k - dim = 3 \/ k - dim = 4) by lia.
      destruct K as [->|[->|[->|[->| ->]]]]; cbn [nth]; intros [E|E]; try discriminate; contradiction.
Qed.
Print Assumptions C89_names.
(** the resolution of the picture: as requested, by default no finer than either of the two discretizations *)
Theorem C89_patches : forall n velocity_degree subdivisions, 1 <= velocity_degree -> 1 <= subdivisions ->
  let m := patch_subdivisions n velocity_degree subdivisions in
  1 <= m /\ (n <> 0 -> m = n) /\ (n = 0 -> m <= velocity_degree /\ m <= subdivisions /\ (m = velocity_degree \/ m = subdivisions)).
Proof.
  intros n v s Hv Hs. cbv zeta. unfold patch_subdivisions. destruct (Nat.eqb_spec n 0) as [E|E]; [subst n|repeat split; try lia; intros; contradiction].
  split; [lia|split; [intros H; contradiction|intros _; lia]].
Qed.
Print Assumptions C89_patches.
(** the cell data "Standard_refine" and "Biased_refine": D is the logarithmic closeness, A the look-ahead of mark_cells_for_refinement *)
Theorem C89_indicators : forall epsilon dt (grads : list (list R)) u0 ls0 m,
  (0 < epsilon)%R -> is_largest grads m -> (0 < m)%R -> sqrt (tdot (last grads []) (last grads [])) <> 0%R ->
  let d := MkData grads u0 ls0 in
  let D := ln (m * epsilon) in
  let A := (4 * dt * tdot (last grads []) u0 / sqrt (tdot (last grads []) (last grads [])) / epsilon * ls0)%R in
  (standard_refine epsilon d = true <-> (D > -7)%R) /\
  (biased_refine epsilon dt d = true <-> (D + 5 * A > -7 \/ D > -4)%R).
Proof.
  intros eps dt grads u0 ls0 m He Hm Hp Hl. cbv zeta.
  unfold standard_refine, biased_refine, shown_mod_distance, shown_direction, distance. cbn [id_gradients id_velocity_0 id_level_set_0]. cbv zeta. rewrite (largest_is _ _ Hm).
  assert (0 < m * eps)%R by nra. unfold elog. destruct (Rltb_spec 0 (m * eps)) as [_|X]; [|lra].
  unfold tnorm. unfold ediv. destruct (Reqb_spec (sqrt (tdot (last grads []) (last grads []))) 0) as [X|_]; [contradiction|].
  destruct (Reqb_spec eps 0) as [X|_]; [lra|]. cbn [emul eadd].
  set (n := sqrt (tdot (last grads []) (last grads []))) in *.
  replace (20 * dt * tdot (last grads []) u0 / n / eps * ls0)%R with (5 * (4 * dt * tdot (last grads []) u0 / n / eps * ls0))%R by (field; split; lra).
  set (D := ln (m * eps)). set (A := (4 * dt * tdot (last grads []) u0 / n / eps * ls0)%R). clearbody D A. unfold ngtb. cbn [nltb ENum nlit eltb].
  replace (Q2R (-7#1)) with (-7)%R by (unfold Q2R; cbn; lra). replace (Q2R (-4#1)) with (-4)%R by (unfold Q2R; cbn; lra).
  destruct (Rltb_spec (-7) D), (Rltb_spec (-7) (D + 5 * A)), (Rltb_spec (-4) D); cbn; split; split; intros X; try discriminate; try lra; auto.
Qed.
Print Assumptions C89_indicators.
(** in a fluid at rest the picture shows the cells that will be refined (if their level allows it) *)
Theorem C89_indicators_at_rest : forall lower upper level f epsilon dt (grads : list (list R)) u0 ls0 m,
  (0 < epsilon)%R -> is_largest grads m -> (0 < m)%R -> sqrt (tdot (last grads []) (last grads [])) <> 0%R -> tdot (last grads []) u0 = 0%R -> (level < upper)%Z ->
  (biased_refine epsilon dt (MkData grads u0 ls0) = true <->
   refined (mark_level_set_cell lower upper (indicator_cell level f epsilon dt (MkData grads u0 ls0)))) /\
  (standard_refine epsilon (MkData grads u0 ls0) = true <->
   refined (mark_level_set_cell lower upper (indicator_cell level f epsilon dt (MkData grads u0 ls0)))).
Proof.
  intros lo up l f eps dt grads u0 ls0 m He Hm Hp Hl Hu Hlev.
  destruct (C89_indicators eps dt grads u0 ls0 m He Hm Hp Hl) as [S1 S2].
  destruct (C80_level_set lo up l f eps dt grads u0 ls0 m He Hm Hp Hl) as [R1 _]. cbv zeta in *. rewrite Hu in *.
  replace (4 * dt * 0 / sqrt (tdot (last grads []) (last grads [])) / eps * ls0)%R with 0%R in * by (field; split; lra).
  rewrite S1, S2, R1. split; split; intros X; try (split; [exact Hlev|]); lra.
Qed.
Print Assumptions C89_indicators_at_rest.
(** Violated in a moving fluid: the look-ahead drawn is five times the one used.  Whenever the drawn one lifts the cell above the
    bound and the used one does not, the picture shows the cell as refined while it is even coarsened. *)
Theorem C89_violation_indicators : forall lower upper level f epsilon dt (grads : list (list R)) u0 ls0 m,
  (0 < epsilon)%R -> is_largest grads m -> (0 < m)%R -> sqrt (tdot (last grads []) (last grads [])) <> 0%R -> (lower < level)%Z ->
  let D := ln (m * epsilon) in
  let A := (4 * dt * tdot (last grads []) u0 / sqrt (tdot (last grads []) (last grads [])) / epsilon * ls0)%R in
  (D + A < -8 /\ -7 < D + 5 * A)%R -> (D < -4)%R ->
  biased_refine epsilon dt (MkData grads u0 ls0) = true /\
  coarsened (mark_level_set_cell lower upper (indicator_cell level f epsilon dt (MkData grads u0 ls0))).
Proof.
  intros lo up l f eps dt grads u0 ls0 m He Hm Hp Hl Hlev. cbv zeta. intros HA HD.
  destruct (C89_indicators eps dt grads u0 ls0 m He Hm Hp Hl) as [_ S2].
  destruct (C80_level_set lo up l f eps dt grads u0 ls0 m He Hm Hp Hl) as [R1 R2]. cbv zeta in *. split.
  - apply S2. left. lra.
  - apply R2. split; [exact Hlev|]. split; [|left; lra]. intros X. apply R1 in X. destruct X as [_ X]. lra.
Qed.
Print Assumptions C89_violation_indicators.
Example C89_violation_indicators_nonvacuous : exists (grads : list (list R)) u0 ls0 m,
  is_largest grads m /\ (0 < m)%R /\ sqrt (tdot (last grads []) (last grads [])) <> 0%R /\
  let D := ln (m * 1) in let A := (4 * 1 * tdot (last grads []) u0 / sqrt (tdot (last grads []) (last grads [])) / 1 * ls0)%R in
  (D + A < -8 /\ -7 < D + 5 * A)%R /\ (D < -4)%R.
Proof.
  exists [[exp (-9)]], [1/4]%R, (6/10)%R, (exp (-9)). pose proof (exp_pos (-9)) as P.
  assert (E : sqrt (tdot [exp (-9)] [exp (-9)]) = exp (-9)) by (cbn; rewrite Rplus_0_r; apply sqrt_square; lra).
  cbn [last]. rewrite !E. split; [split; [intros g [<-|[]]; rewrite E; lra|exists [exp (-9)]; split; [left; reflexivity|exact E]]|].
  split; [exact P|split; [lra|]]. cbv zeta. rewrite Rmult_1_r, ln_exp.
  replace (4 * 1 * tdot [exp (-9)] [1/4]%R / exp (-9) / 1 * (6/10))%R with (6/10)%R by (cbn; field; lra). lra.
Qed.
(** a mesh of two cells in one dimension, linear elements for all fields, each cell on its own process: the shared node *)
Definition ex_handlers : handlers :=
  let sys := fun i => if Nat.ltb i 2 then MkBase 0 0 i else if Nat.ltb i 4 then MkBase 1 0 (i - 2) else
             if Nat.ltb i 12 then MkBase 2 ((i - 4) / 2) ((i - 4) mod 2) else MkBase 3 0 (i - 12) in
  MkHandlers [0; 1] (fun c => c) 14 2 sys (fun c i => (i / 2) * 3 + c + i mod 2) (fun c l => c + l) (fun c l => c + l) (fun c l => c + l)
    (fun j => if Nat.eqb (j mod 3) 2 then 1 else 0).
Example C89_nonvacuous : valid_system 1 ex_handlers /\ valid_numbering ex_handlers /\
  joint_solution ex_handlers (MkFields INR INR INR (fun j => INR (10 + j)) INR (fun _ => INR)) (h_joint ex_handlers 1 6) = INR 11.
Proof.
  split; [|split].
  - intros i Hi. cbn in Hi. do 14 (destruct i as [|i]; [cbn; lia|]). lia.
  - split.
    + intros c i c' i' Hc Hc' Hi Hi' E. cbn [ex_handlers h_joint h_joint_per_cell h_cells] in *.
      assert (Q : i / 2 = i' / 2 /\ c + i mod 2 = c' + i' mod 2).
      { pose proof (Nat.mod_upper_bound i 2 ltac:(lia)). pose proof (Nat.mod_upper_bound i' 2 ltac:(lia)). destruct Hc as [<-|[<-|[]]], Hc' as [<-|[<-|[]]]; lia. }
      destruct Q as [Q1 Q2]. destruct Hc as [<-|[<-|[]]], Hc' as [<-|[<-|[]]];
      do 14 (destruct i as [|i]; [do 14 (destruct i' as [|i']; [cbn in Q1, Q2; try discriminate Q1; try discriminate Q2; cbn; auto|]); lia|]); lia.
    + intros c i Hc Hi. cbn [ex_handlers h_joint_per_cell h_cells] in *. destruct Hc as [<-|[<-|[]]].
      * exists 0, i. do 14 (destruct i as [|i]; [cbn; repeat split; auto|]). lia.
      * exists (if Nat.even i then 0 else 1), (if Nat.even i then S i else i). do 14 (destruct i as [|i]; [cbn; repeat split; auto; lia|]). lia.
  - reflexivity.
Qed.

(** ** C90 *)
Section Output.
Context (dim : nat) (cn : string) (vdeg sub nsub : nat).
Context (cc : (nat -> R) -> (nat -> nat -> R) * (nat -> R)) (ch : (nat -> R) -> nat -> R) (h : handlers) (p : nat).
Let out at_tick print s := level_set_output dim cn at_tick print vdeg sub nsub cc ch h p s.
(** a file is written exactly at the ticks of the output frequency and if fields are to be written; without a file nothing happens at all *)
Theorem C90_when : forall at_tick print s,
  (snd (out at_tick print s) <> None <-> at_tick = true /\ print = true) /\
  (snd (out at_tick print s) = None -> fst (out at_tick print s) = s).
Proof.
  assert (T : forall s, snd (out true true s) <> None) by (intros s; unfold out, level_set_output; cbn; discriminate).
  intros [] [] s.
  - split; [split; [auto|intros _; apply T]|intros X; contradiction (T s X)].
  - split; [split; [intros X; contradiction X; reflexivity|intros [_ X]; discriminate X]|reflexivity].
  - split; [split; [intros X; contradiction X; reflexivity|intros [X _]; discriminate X]|reflexivity].
  - split; [split; [intros X; contradiction X; reflexivity|intros [X _]; discriminate X]|reflexivity].
Qed.
(** the solution of the flow and the level set are never touched; after the first step no field is; the picture is that of the
    fields as they are afterwards *)
Theorem C90_fields : forall at_tick print s,
  let s' := fst (out at_tick print s) in
  f_velocity (s_fields s') = f_velocity (s_fields s) /\ f_pressure (s_fields s') = f_pressure (s_fields s) /\
  f_level_set (s_fields s') = f_level_set (s_fields s) /\ s_step_no s' = s_step_no s /\
  (s_step_no s <> 0 -> s_fields s' = s_fields s) /\
  (forall pic, snd (out at_tick print s) = Some pic -> pic_joint pic = joint_solution h (s_fields s') /\
     pic_names pic = joint_names dim cn /\ pic_vector pic = joint_is_vector dim /\
     (nsub <> 0 -> pic_patches pic = nsub) /\ (nsub = 0 -> pic_patches pic <= vdeg /\ pic_patches pic <= sub /\ (pic_patches pic = vdeg \/ pic_patches pic = sub))).
Proof.
  intros [] [] s; unfold out, level_set_output; cbn; repeat split; auto; try discriminate;
  destruct (Nat.eqb_spec (s_step_no s) 0); cbn; auto; try contradiction; injection H as <-; cbn; unfold patch_subdivisions;
  destruct (Nat.eqb_spec nsub 0); try lia; try reflexivity.
Qed.
(** at the start of the simulation normals, curvature and Heaviside function shown belong to the level set shown, also if they had not
    been computed before *)
Theorem C90_start : forall s, s_step_no s = 0 ->
  let F' := s_fields (fst (out true true s)) in
  f_normal F' = fst (cc (f_level_set (s_fields s))) /\ f_curvature F' = snd (cc (f_level_set (s_fields s))) /\
  f_heaviside F' = ch (f_level_set (s_fields s)).
Proof. intros s H. unfold out, level_set_output. cbn. rewrite H. cbn. auto. Qed.
(** writing twice shows the same picture and changes nothing more *)
Theorem C90_idempotent : forall at_tick print s, let s' := fst (out at_tick print s) in
  out at_tick print s' = (MkSolver (s_fields s') (s_flags (fst (out at_tick print s'))) (s_step_no s'), snd (out at_tick print s)) /\
  (forall c, s_flags (fst (out at_tick print s')) c = s_flags s' c).
Proof.
  intros [] [] s; unfold out, level_set_output; cbn; try (split; [destruct s; reflexivity|reflexivity]).
  destruct (Nat.eqb (s_step_no s) 0) eqn:E; cbn; (split; [reflexivity|]); intros c; destruct (Nat.eqb (h_subdomain h c) p); reflexivity.
Qed.
(** flags for refinement and coarsening: kept on the cells of other processes *)
Theorem C90_flags_partial : forall at_tick print s c, h_subdomain h c <> p -> s_flags (fst (out at_tick print s)) c = s_flags s c.
Proof.
  intros [] [] s c Hc; unfold out, level_set_output; cbn; try reflexivity. rewrite (proj2 (Nat.eqb_neq _ _) Hc). reflexivity.
Qed.
(** Violated: flags set by the user between two steps are lost when output is written *)
Theorem C90_violation_flags : forall s c, h_subdomain h c = p -> s_flags (fst (out true true s)) c = MkFlags false false.
Proof. intros s c Hc. unfold out, level_set_output. cbn. rewrite Hc, Nat.eqb_refl. reflexivity. Qed.
End Output.
Print Assumptions C90_when.
Print Assumptions C90_fields.
Print Assumptions C90_start.
Print Assumptions C90_idempotent.
Print Assumptions C90_flags_partial.
Print Assumptions C90_violation_flags.
(** without computing anything, the base class draws the four fields under their names *)
Theorem C90_two_phase : forall cn at_tick print vdeg sub nsub F,
  (two_phase_output cn at_tick print vdeg sub nsub F <> None <-> at_tick = true /\ print = true) /\
  (forall pic, two_phase_output cn at_tick print vdeg sub nsub F = Some pic -> cn <> "velocity"%string -> cn <> "pressure"%string -> cn <> "concentration"%string ->
    forall name v, In (name, v) (pp_data pic) <->
      (name = "velocity"%string /\ v = f_velocity F) \/ (name = "pressure"%string /\ v = f_pressure F) \/
      (name = "concentration"%string /\ v = f_level_set F) \/ (name = cn /\ v = f_curvature F)) /\
  (forall pic, two_phase_output cn at_tick print vdeg sub nsub F = Some pic ->
     (nsub <> 0 -> pp_patches pic = nsub) /\ (nsub = 0 -> pp_patches pic <= vdeg /\ pp_patches pic <= sub /\ (pp_patches pic = vdeg \/ pp_patches pic = sub))).
Proof.
  intros cn [] [] vd sub ns F; unfold two_phase_output; cbn [negb]; (split; [|split]).
  1: split; [auto|discriminate].
  3,6,9: split; [intros X; contradiction X; reflexivity|intros [? ?]; discriminate].
  3-8: intros pic X; discriminate.
  - intros pic E _ _ _ name v. injection E as <-. cbn. split.
    + intros [E|[E|[E|[E|[]]]]]; injection E as <- <-; auto.
    + intros [[-> ->]|[[-> ->]|[[-> ->]|[-> ->]]]]; auto.
  - intros pic E. injection E as <-. cbn. unfold patch_subdivisions. destruct (Nat.eqb_spec ns 0); lia.
Qed.
Print Assumptions C90_two_phase.

(** *** Does the run depend on whether the initial state is drawn?  Matrix-free solver: no, whatever the reinitialization
    operators.  The first step advects the level set and reinitializes it; drawing has only changed the nodal normals. *)
Theorem C90_run_matrix_free : forall (V NF E : Type) (o : reinit_ops V NF E) range stab diff advect (sol : V) (before drawn : NF) (eval : E),
  mf_sol (fst (mf_reinitialize o range stab diff (MkMF (advect sol) drawn eval))) =
  mf_sol (fst (mf_reinitialize o range stab diff (MkMF (advect sol) before eval))).
Proof. intros. apply C41_no_stale_normals. reflexivity. Qed.
Print Assumptions C90_run_matrix_free.
Lemma iterates_fresh : forall (V NF E : Type) (o : reinit_ops V NF E) nodal0 u k, k <= 8 ->
  fst (matrix_iterates o nodal0 false u k) = Nat.iter k (advance o (ro_compress o (ro_evaluate o (ro_normals o u)))) u /\
  (k <> 0 -> snd (matrix_iterates o nodal0 false u k) = ro_normals o u).
Proof.
  intros V NF E o nodal0 u k. induction k as [|k IH]; intro K; [split; [reflexivity|congruence]|].
  destruct (IH ltac:(lia)) as [A B]. cbn [matrix_iterates].
  destruct (matrix_iterates o nodal0 false u k) as [w nf] eqn:M. cbn [fst snd] in A, B.
  assert (R : (if k mod 8 =? 0 then if (k =? 0) && false then nodal0 else ro_normals o w else nf) = ro_normals o u).
  { rewrite (Nat.mod_small k 8) by lia. destruct (Nat.eqb_spec k 0) as [Z|Z]; [subst k; cbn [andb]; rewrite A; reflexivity|apply B; exact Z]. }
  rewrite R. split; [|reflexivity]. cbn [fst]. rewrite A. reflexivity.
Qed.
(** Violated for the matrix-based solver.  Drawing computes the curvature, hence the normals, and leaves the mark "normals are up to
    date" (level_set_okz_matrix.cc:617-620,714): the first time step then reinitializes along the normals of the initial state; without
    drawing it computes them from the advected level set. *)
Theorem C90_violation_run_matrix : forall (V NF E : Type) (o : reinit_ops V NF E) stab advect st, 1 <= stab <= 8 -> ms_flag st = false ->
  exists k k', k <= stab /\ k' <= stab /\
    ms_sol (ms_time_step o stab advect (ms_compute_normal o false st)) =
      Nat.iter k (advance o (ro_compress o (ro_evaluate o (ro_normals o (ms_sol st))))) (advect (ms_sol st)) /\
    ms_sol (ms_time_step o stab advect st) =
      Nat.iter k' (advance o (ro_compress o (ro_evaluate o (ro_normals o (advect (ms_sol st)))))) (advect (ms_sol st)).
Proof.
  intros V NF E o stab advect st Hs Hf.
  destruct (C41_matrix_normals o stab (MkMS (advect (ms_sol st)) (ro_normals o (ms_sol st)) true)) as (k & K & A & _).
  destruct (C41_matrix_normals o stab (MkMS (advect (ms_sol st)) (ms_nodal st) false)) as (k' & K' & A' & _).
  exists k, k'. split; [exact K|split; [exact K'|]]. split.
  - unfold ms_time_step. cbn [ms_compute_normal andb ms_sol ms_nodal ms_flag]. cbn [ms_sol ms_nodal ms_flag] in A. etransitivity; [exact A|]. apply iterates_fixed. lia.
  - unfold ms_time_step. cbn [ms_compute_normal andb ms_sol ms_nodal ms_flag]. rewrite Hf. cbn [ms_sol ms_nodal ms_flag] in A'. etransitivity; [exact A'|].
    apply iterates_fresh. lia.
Qed.
Print Assumptions C90_violation_run_matrix.
(** the level set after one step is 16 if the initial state was drawn and 26 otherwise *)
Example C90_violation_run_matrix_witness : let st := MkMS 3%R 0%R false in
  ms_sol (ms_time_step ex_ops 1 (fun u => u + 10)%R (ms_compute_normal ex_ops false st)) = 16%R /\
  ms_sol (ms_time_step ex_ops 1 (fun u => u + 10)%R st) = 26%R.
Proof.
  cbv zeta. unfold ms_time_step, ms_reinitialize, ms_compute_normal.
  cbn [Nat.add ms_loop Nat.leb Nat.sub Nat.modulo Nat.divmod snd fst Nat.eqb andb negb Nat.ltb ms_compute_normal ms_flag ms_sol ms_nodal
       ex_ops ro_diffuse ro_compress ro_normals ro_evaluate ro_add].
  unfold small. cbn [ro_norm ex_ops]. rewrite (Properties_Bubble.Rltb_false (Rabs 3)) by rabs. rewrite (Properties_Bubble.Rltb_false (Rabs (3 + 10))) by rabs.
  unfold ms_compute_normal. cbn [andb ms_flag ms_sol ms_nodal fst snd app ex_ops ro_normals]. split; lra.
Qed.

(** ** Flags of the file *)
(** time and cycle number are those of the clock; Violated: the sharp-interface solvers ask for curved cells of higher order, but the
    request is overwritten when the file is written *)
Theorem C89_violation_higher_order : forall now cycle,
  vtk_time (sharp_output_flags now cycle) = Some now /\ vtk_cycle (sharp_output_flags now cycle) = Some cycle /\
  vtk_higher_order sharp_flags = true /\ vtk_higher_order (sharp_output_flags now cycle) = false.
Proof. intros. repeat split. Qed.
Print Assumptions C89_violation_higher_order.
