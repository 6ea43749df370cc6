(** * C98: geometry of the tracked front *)
From Coq Require Import Reals List Arith Bool Lra Lia FunctionalExtensionality.
From Verif Require Import SumR Model_FrontGeometry.
Import ListNotations.
Open Scope R_scope.

(** ** Specification *)
(** local unknowns of a cell belong to different nodes *)
Definition proper (F : refel) (c : fcell) : Prop := forall i j, (i <= re_degree F)%nat -> (j <= re_degree F)%nat -> c i = c j -> i = j.
(** the curve of a cell has a tangent at s *)
Definition regular (F : refel) (X : coords) (c : fcell) (s : R) : Prop := tangent F X c s 0 <> 0 \/ tangent F X c s 1 <> 0.
(** unit vector orthogonal to the curve, to the left of the tangent *)
Definition normal_of (F : refel) (X : coords) (c : fcell) (s : R) (n : nat -> R) : Prop :=
  n 0%nat * n 0%nat + n 1%nat * n 1%nat = 1 /\
  n 0%nat * tangent F X c s 0 + n 1%nat * tangent F X c s 1 = 0 /\
  0 < tangent F X c s 0 * n 1%nat - tangent F X c s 1 * n 0%nat.
(** divergence along the curve of a field given by nodal values: change of the field along the curve, component in direction of the
    curve, per unit of length *)
Definition field_change (F : refel) (N : coords) (c : fcell) (s : R) (e : nat) : R := sumn (S (re_degree F)) (fun i => N (c i) e * re_dshape F s i).
Definition curve_divergence (F : refel) (X N : coords) (c : fcell) (s : R) : R :=
  (field_change F N c s 0 * tangent F X c s 0 + field_change F N c s 1 * tangent F X c s 1) /
  (tangent F X c s 0 * tangent F X c s 0 + tangent F X c s 1 * tangent F X c s 1).
(** contract of the element: constants and, up to degree m, polynomials (powers of s - 1/2) have the right derivative *)
Definition derives_constants (F : refel) : Prop := forall s, sumn (S (re_degree F)) (re_dshape F s) = 0.
Definition derives (F : refel) (m : nat) : Prop := forall s j, (j <= m)%nat ->
  sumn (S (re_degree F)) (fun i => (support F i - 1 / 2) ^ j * re_dshape F s i) = INR j * (s - 1 / 2) ^ pred j.
Definition at_left (F : refel) : Prop := re_lobatto F 0 = 0.
Definition at_right (F : refel) : Prop := re_lobatto F (re_degree F) = 1.

(** ** Writes *)
Lemma store_other {A} (l : list (nat * A)) v a : ~ In a (map fst l) -> store l v a = v a.
Proof.
  revert v. induction l as [|[b x] l IH]; intros v H; [reflexivity|]. cbn. cbn in H. unfold store in IH. rewrite IH by tauto.
  destruct (Nat.eqb_spec a b); [exfalso; apply H; left; congruence|reflexivity].
Qed.
Lemma store_last {A} (l1 l2 : list (nat * A)) v a x : ~ In a (map fst l2) -> store (l1 ++ (a, x) :: l2) v a = x.
Proof.
  intros H. unfold store. rewrite fold_left_app. cbn [fold_left fst snd]. pose proof (store_other l2 (fun g => if Nat.eqb g a then x else fold_left (fun v na => fun g => if Nat.eqb g (fst na) then snd na else v g) l1 v g) a H) as E.
  unfold store in E. rewrite E. rewrite Nat.eqb_refl. reflexivity.
Qed.
Lemma store_in {A} (l : list (nat * A)) v a : In a (map fst l) -> exists x, In (a, x) l /\ store l v a = x.
Proof.
  revert v. induction l as [|[b x] l IH]; intros v H; [destruct H|].
  destruct (in_dec Nat.eq_dec a (map fst l)) as [I|I].
  - destruct (IH (fun g => if Nat.eqb g b then x else v g) I) as (y & Hy & E). exists y. split; [right; exact Hy|exact E].
  - destruct H as [H|H]; [|contradiction]. cbn in H. subst b. exists x. split; [left; reflexivity|]. apply (store_last [] l v a x I).
Qed.
Lemma in_writes {A} F cells (val : fcell -> nat -> A) a x : In (a, x) (writes F cells val) <-> exists c i, In c cells /\ (i <= re_degree F)%nat /\ a = c i /\ x = val c i.
Proof.
  unfold writes. rewrite in_flat_map. split.
  - intros (c & Hc & H). apply in_map_iff in H. destruct H as (i & E & Hi). injection E as <- <-. apply in_seq in Hi. exists c, i. repeat split; auto; lia.
  - intros (c & i & Hc & Hi & -> & ->). exists c. split; [exact Hc|]. apply in_map_iff. exists i. split; [reflexivity|]. apply in_seq. lia.
Qed.
Lemma written {A} F cells (val : fcell -> nat -> A) v c i : In c cells -> (i <= re_degree F)%nat ->
  exists c' i', In c' cells /\ (i' <= re_degree F)%nat /\ c' i' = c i /\ store (writes F cells val) v (c i) = val c' i'.
Proof.
  intros Hc Hi. destruct (store_in (writes F cells val) v (c i)) as (x & Hx & E).
  - apply in_map_iff. exists (c i, val c i). split; [reflexivity|]. apply in_writes. exists c, i. auto.
  - apply in_writes in Hx. destruct Hx as (c' & i' & Hc' & Hi' & Ea & Ex). exists c', i'. repeat split; auto. rewrite E. exact Ex.
Qed.
Lemma writes_app {A} F l1 l2 (val : fcell -> nat -> A) : writes F (l1 ++ l2) val = writes F l1 val ++ writes F l2 val.
Proof. unfold writes. apply flat_map_app. Qed.
(** the last cell determines the values of its nodes *)
Lemma written_last {A} F cells c (val : fcell -> nat -> A) v i : proper F c -> (i <= re_degree F)%nat -> store (writes F (cells ++ [c]) val) v (c i) = val c i.
Proof.
  intros P Hi. rewrite writes_app. assert (E : writes F [c] val = map (fun j => (c j, val c j)) (seq 0 i) ++ (c i, val c i) :: map (fun j => (c j, val c j)) (seq (S i) (re_degree F - i))).
  { unfold writes. cbn [flat_map]. rewrite app_nil_r. replace (S (re_degree F)) with (i + S (re_degree F - i))%nat by lia. rewrite seq_app, map_app. reflexivity. }
  rewrite E, app_assoc. apply store_last. rewrite map_map. cbn [fst]. intros H. apply in_map_iff in H. destruct H as (j & Ej & Hj). apply in_seq in Hj.
  apply P in Ej; lia.
Qed.
Lemma speed2_pos F X c s : regular F X c s -> 0 < speed2 F X c s.
Proof.
  unfold regular, speed2. intros H. set (a := tangent F X c s 0) in *. set (b := tangent F X c s 1) in *. 
  pose proof (Rle_0_sqr a) as A. pose proof (Rle_0_sqr b) as B. unfold Rsqr in *. destruct H as [H|H]; apply Rsqr_pos_lt in H; unfold Rsqr in H; lra.
Qed.
Lemma curve_normal_spec F X c s : regular F X c s -> normal_of F X c s (curve_normal F X c s).
Proof.
  intros H. apply speed2_pos in H. pose proof (sqrt_lt_R0 _ H) as Q. pose proof (sqrt_sqrt _ (Rlt_le _ _ H)) as QQ.
  unfold normal_of, curve_normal. set (q := sqrt (speed2 F X c s)) in *. unfold speed2 in *. set (a := tangent F X c s 0) in *. set (b := tangent F X c s 1) in *. refine (conj _ (conj _ _)).
  - transitivity ((a * a + b * b) / (q * q)); [field; lra|]. rewrite QQ. field. lra.
  - field. lra.
  - replace (a * (a / q) - b * (- b / q)) with ((a * a + b * b) / q) by (field; lra). apply Rdiv_lt_0_compat; assumption.
Qed.
Lemma sumn_two f : sumn 2 f = f 0%nat + f 1%nat.
Proof. cbn. ring. Qed.
Lemma normal_divergence_spec F X N c s : normal_divergence F X N c s = curve_divergence F X N c s.
Proof.
  unfold normal_divergence, curve_divergence, field_change. change (tangent F X c s 0 * tangent F X c s 0 + tangent F X c s 1 * tangent F X c s 1) with (speed2 F X c s).
  rewrite sumn_two. unfold Rdiv. rewrite Rmult_plus_distr_r, !Rmult_assoc. f_equal; rewrite <- sumn_scal_r; apply sumn_ext; intros; ring.
Qed.

(** ** Normals *)
(** every node of the surface gets the unit normal of one of its cells, at the place of the node in that cell *)
Theorem C98_normals : forall F X cells c i, In c cells -> (i <= re_degree F)%nat ->
  (forall c' i', In c' cells -> (i' <= re_degree F)%nat -> c' i' = c i -> regular F X c' (support F i')) ->
  exists c' i', In c' cells /\ (i' <= re_degree F)%nat /\ c' i' = c i /\ normal_of F X c' (support F i') (front_normals F X cells (c i)).
Proof.
  intros F X cells c i Hc Hi HR. unfold front_normals, compute_normal.
  destruct (written F cells (fun c i e => curve_normal F X c (support F i) e) (fun _ _ => 0) c i Hc Hi) as (c' & i' & Hc' & Hi' & E & V).
  exists c', i'. refine (conj Hc' (conj Hi' (conj E _))). rewrite V. apply curve_normal_spec. apply HR; assumption.
Qed.
(** where the cells meet smoothly the result does not depend on the order of the cells *)
Theorem C98_normals_smooth : forall F X cells,
  (forall c c' i i', In c cells -> In c' cells -> (i <= re_degree F)%nat -> (i' <= re_degree F)%nat -> c i = c' i' ->
     forall e, (e < 2)%nat -> curve_normal F X c (support F i) e = curve_normal F X c' (support F i') e) ->
  forall c i, In c cells -> (i <= re_degree F)%nat -> forall e, (e < 2)%nat -> front_normals F X cells (c i) e = curve_normal F X c (support F i) e.
Proof.
  intros F X cells HS c i Hc Hi e He. unfold front_normals, compute_normal.
  destruct (written F cells (fun c i e => curve_normal F X c (support F i) e) (fun _ _ => 0) c i Hc Hi) as (c' & i' & Hc' & Hi' & E & V).
  rewrite V. apply HS; auto.
Qed.
Lemma derives_zero F m : derives F m -> derives_constants F.
Proof.
  intros D s. pose proof (D s 0%nat ltac:(lia)) as D0. cbn [INR pred pow] in D0. etransitivity; [|etransitivity; [exact D0|ring]]. apply sumn_ext. intros; ring.
Qed.
Lemma derives_one F m : (1 <= m)%nat -> derives F m -> forall s, sumn (S (re_degree F)) (fun i => (support F i - 1 / 2) * re_dshape F s i) = 1.
Proof.
  intros Hm D s. pose proof (D s 1%nat Hm) as D1. cbn [INR pred pow] in D1. etransitivity; [|etransitivity; [exact D1|ring]]. apply sumn_ext. intros; ring.
Qed.
(** straight cells *)
Definition straight (F : refel) (X : coords) (c : fcell) (P Q : nat -> R) : Prop :=
  forall i e, (i <= re_degree F)%nat -> X (c i) e = P e + support F i * (Q e - P e).
Lemma straight_tangent F X c P Q s e : derives F 1 -> straight F X c P Q -> tangent F X c s e = Q e - P e.
Proof.
  intros D HS. unfold tangent. pose proof (derives_zero F 1 D s) as D0. pose proof (derives_one F 1 (le_n 1) D s) as D1.
  rewrite (sumn_ext _ _ (fun i => (P e + 1 / 2 * (Q e - P e)) * re_dshape F s i + (Q e - P e) * ((support F i - 1 / 2) * re_dshape F s i))).
  - rewrite sumn_plus, !sumn_scal, D0, D1. ring.
  - intros i Hi. rewrite HS by lia. ring.
Qed.
(** Violated at kinks: the normal of a shared node is the one of the last of its cells, so that it depends on the numbering of the cells *)
Theorem C98_violation_order : forall F, derives F 1 -> (1 <= re_degree F)%nat -> at_left F -> at_right F ->
  exists X c1 c2, proper F c1 /\ proper F c2 /\ (forall s, regular F X c1 s /\ regular F X c2 s) /\ c1 1%nat = c2 0%nat /\
    front_normals F X [c1; c2] (c1 1%nat) 0%nat = -1 /\ front_normals F X [c2; c1] (c1 1%nat) 0%nat = 0.
Proof.
  intros F D Hk HL HR. set (k := re_degree F) in *.
  pose (c1 := fun i : nat => i). pose (c2 := fun i : nat => match i with O => 1%nat | S _ => (k + i)%nat end).
  pose (X := fun (a e : nat) => if Nat.leb a k then (match e with O => support F a | _ => 0 end) else match e with O => 1 | _ => support F (a - k) end : R).
  assert (S0 : support F 0 = 0) by exact HL.
  assert (S1 : support F 1 = 1) by exact HR.
  assert (T1 : straight F X c1 (fun _ => 0) (fun e => match e with O => 1 | _ => 0 end)).
  { intros i e Hi. unfold X, c1. fold k in Hi. rewrite (proj2 (Nat.leb_le i k) Hi). destruct e; ring. }
  assert (T2 : straight F X c2 (fun e => match e with O => 1 | _ => 0 end) (fun _ => 1)).
  { intros i e Hi. unfold X, c2. fold k in Hi. destruct i as [|i].
    - rewrite (proj2 (Nat.leb_le 1 k)) by exact Hk. rewrite S0, S1. destruct e; ring.
    - rewrite (proj2 (Nat.leb_gt (k + S i) k)) by lia. replace (k + S i - k)%nat with (S i) by lia. destruct e; ring. }
  assert (P1 : proper F c1) by (intros i j _ _ E; exact E).
  assert (P2 : proper F c2) by (intros [|i] [|j] Hi Hj E; cbn in E; fold k in Hi, Hj; lia).
  exists X, c1, c2. refine (conj P1 (conj P2 (conj _ (conj eq_refl (conj _ _))))).
  - intros s. split; [left|right]; [rewrite (straight_tangent F X c1 _ _ s 0 D T1)|rewrite (straight_tangent F X c2 _ _ s 1 D T2)]; lra.
  - change (c1 1%nat) with (c2 0%nat). unfold front_normals, compute_normal. rewrite (written_last F [c1] c2 _ _ 0 P2) by lia.
    unfold curve_normal, speed2. rewrite !(straight_tangent F X c2 _ _ _ _ D T2). replace ((1 - 1) * (1 - 1) + (1 - 0) * (1 - 0)) with 1 by ring. rewrite sqrt_1. lra.
  - unfold front_normals, compute_normal. rewrite (written_last F [c2] c1 _ _ 1 P1) by exact Hk.
    unfold curve_normal, speed2. rewrite !(straight_tangent F X c1 _ _ _ _ D T1). replace ((1 - 0) * (1 - 0) + (0 - 0) * (0 - 0)) with 1 by ring. rewrite sqrt_1. lra.
Qed.
Print Assumptions C98_violation_order.

(** ** Curvature *)
(** the curvature is exact on circles: if the normals point away from the centre m of a circle of radius R0 *)
Theorem C98_circle : forall F X N cells m R0 before c i, derives_constants F -> R0 <> 0 ->
  (forall c i e, In c cells -> (i <= re_degree F)%nat -> N (c i) e = (X (c i) e - m e) / R0) ->
  In c cells -> (i <= re_degree F)%nat -> (forall c i, In c cells -> (i <= re_degree F)%nat -> regular F X c (re_lobatto F i)) ->
  compute_curvature F X N cells before (c i) = 1 / R0.
Proof.
  intros F X N cells m R0 before c i D0 HR HN Hc Hi HG. unfold compute_curvature.
  destruct (written F cells (fun c q => normal_divergence F X N c (re_lobatto F q)) before c i Hc Hi) as (c' & q & Hc' & Hq & E & V).
  rewrite V, normal_divergence_spec. unfold curve_divergence.
  assert (W : forall e, field_change F N c' (re_lobatto F q) e = tangent F X c' (re_lobatto F q) e / R0).
  { intros e. unfold field_change, tangent, Rdiv.
    rewrite (sumn_ext _ _ (fun j => / R0 * (X (c' j) e * re_dshape F (re_lobatto F q) j) + (- m e / R0) * re_dshape F (re_lobatto F q) j)).
    - rewrite sumn_plus, !sumn_scal, D0. ring.
    - intros j Hj. rewrite HN by (auto; lia). unfold Rdiv. ring. }
  rewrite !W. pose proof (speed2_pos _ _ _ _ (HG c' q Hc' Hq)) as S2. unfold speed2 in S2. set (a := tangent F X c' (re_lobatto F q) 0) in *. set (b := tangent F X c' (re_lobatto F q) 1) in *.
  field. split; lra.
Qed.
Print Assumptions C98_circle.
(** what is stored at the nodes of the last cell: unknown q gets the divergence at the q-th point from the left *)
Theorem C98_stored_partial : forall F X N cells c before q, proper F c -> (q <= re_degree F)%nat ->
  compute_curvature F X N (cells ++ [c]) before (c q) = curve_divergence F X N c (re_lobatto F q) /\
  ((re_degree F <= 1)%nat -> compute_curvature F X N (cells ++ [c]) before (c q) = curve_divergence F X N c (support F q)).
Proof.
  intros F X N cells c before q P Hq. assert (E : compute_curvature F X N (cells ++ [c]) before (c q) = curve_divergence F X N c (re_lobatto F q)).
  { unfold compute_curvature. rewrite (written_last F cells c _ _ q P Hq). apply normal_divergence_spec. }
  split; [exact E|]. intros Hk. rewrite E. f_equal. unfold support. f_equal. destruct q as [|[|q]]; cbn; lia.
Qed.
(** the element of the solver: degree 3 with nodes at the four Gauss-Lobatto points *)
Definition lobatto_width : R := sqrt 5 / 10.
Lemma lobatto_width_sq : lobatto_width * lobatto_width = 1 / 20.
Proof. unfold lobatto_width. replace (sqrt 5 / 10 * (sqrt 5 / 10)) with (sqrt 5 * sqrt 5 / 100) by field. rewrite sqrt_sqrt by lra. field. Qed.
Lemma lobatto_width_pos : 0 < lobatto_width.
Proof. unfold lobatto_width. pose proof (sqrt_lt_R0 5 ltac:(lra)). lra. Qed.
Definition cubic (F : refel) : Prop :=
  re_degree F = 3%nat /\ derives F 3 /\ re_lobatto F 0 = 0 /\ re_lobatto F 1 = 1 / 2 - lobatto_width /\ re_lobatto F 2 = 1 / 2 + lobatto_width /\ re_lobatto F 3 = 1.
(** Violated: the value at the end of the cell is stored at an inner node, and the other way round.  On this smooth curve the curvature
    of the discrete normals at the right end is -12/5, stored is the positive value that belongs to the first inner node *)
Theorem C98_violation_location : forall F, cubic F ->
  exists X c, proper F c /\ (forall s, regular F X c s) /\ support F 1 = 1 /\
    curve_divergence F X (front_normals F X [c]) c 1 = - (12 / 5) /\ 0 < front_curvature F X [c] (c 1%nat).
Proof.
  intros F (Ek & D & L0 & L1 & L2 & L3). set (w := lobatto_width) in *.
  pose proof lobatto_width_sq as W2. pose proof lobatto_width_pos as W0. fold w in W2, W0.
  pose (z := fun i => support F i - 1 / 2).
  assert (Z0 : support F 0 = 0) by exact L0.
  assert (Z1 : support F 1 = 1) by (unfold support; rewrite Ek; exact L3).
  assert (Z2 : support F 2 = 1 / 2 - w) by exact L1.
  assert (Z3 : support F 3 = 1 / 2 + w) by exact L2.
  pose (X := fun (a e : nat) => match e with O => 1 / 2 + z a | _ => 5 / 4 * z a ^ 3 - 3 / 16 * z a end : R).
  pose (c := fun i : nat => i).
  assert (DD : forall s, sumn (S (re_degree F)) (re_dshape F s) = 0 /\ sumn (S (re_degree F)) (fun i => z i * re_dshape F s i) = 1 /\
     sumn (S (re_degree F)) (fun i => z i ^ 2 * re_dshape F s i) = 2 * (s - 1 / 2) /\ sumn (S (re_degree F)) (fun i => z i ^ 3 * re_dshape F s i) = 3 * (s - 1 / 2) ^ 2).
  { intros s. refine (conj (derives_zero F 3 D s) (conj (derives_one F 3 ltac:(lia) D s) (conj _ _))).
    - etransitivity; [exact (D s 2%nat ltac:(lia))|]. cbn. ring.
    - etransitivity; [exact (D s 3%nat ltac:(lia))|]. cbn. ring. }
  assert (T0 : forall s, tangent F X c s 0 = 1).
  { intros s. destruct (DD s) as (D0 & D1 & _ & _). unfold tangent, X, c.
    rewrite (sumn_ext _ _ (fun i => 1 / 2 * re_dshape F s i + z i * re_dshape F s i)) by (intros; ring). rewrite sumn_plus, sumn_scal, D0, D1. ring. }
  assert (T1 : forall s, tangent F X c s 1 = 15 / 4 * (s - 1 / 2) ^ 2 - 3 / 16).
  { intros s. destruct (DD s) as (_ & D1 & _ & D3). unfold tangent, X, c.
    rewrite (sumn_ext _ _ (fun i => 5 / 4 * (z i ^ 3 * re_dshape F s i) + (- (3 / 16)) * (z i * re_dshape F s i))) by (intros; ring). rewrite sumn_plus, !sumn_scal, D1, D3. field. }
  assert (P : proper F c) by (intros i j _ _ E; exact E).
  assert (NN : forall i, (i <= 3)%nat -> front_normals F X [c] (c i) 0%nat = 3 / 20 - 3 * z i ^ 2 /\ front_normals F X [c] (c i) 1%nat = 21 / 20 - z i ^ 2).
  { intros i Hi. unfold front_normals, compute_normal. rewrite (written_last F [] c _ _ i P) by (rewrite Ek; exact Hi).
    unfold curve_normal, speed2. rewrite T0, T1. fold (z i).
    assert (Q : z i ^ 2 = 1 / 4 \/ z i ^ 2 = 1 / 20).
    { unfold z. destruct i as [|[|[|[|i]]]]; [left; rewrite Z0; field|left; rewrite Z1; field| | |lia]; right; [rewrite Z2|rewrite Z3]; rewrite <- W2; ring. }
    destruct Q as [Q|Q]; rewrite Q.
    - replace (1 * 1 + (15 / 4 * (1 / 4) - 3 / 16) * (15 / 4 * (1 / 4) - 3 / 16)) with (5 / 4 * (5 / 4)) by field. rewrite sqrt_square by lra. split; field.
    - replace (1 * 1 + (15 / 4 * (1 / 20) - 3 / 16) * (15 / 4 * (1 / 20) - 3 / 16)) with 1 by field. rewrite sqrt_1. split; field. }
  assert (C : forall s, curve_divergence F X (front_normals F X [c]) c s =
     (-6 * (s - 1 / 2) - 2 * (s - 1 / 2) * (15 / 4 * (s - 1 / 2) ^ 2 - 3 / 16)) / (1 + (15 / 4 * (s - 1 / 2) ^ 2 - 3 / 16) * (15 / 4 * (s - 1 / 2) ^ 2 - 3 / 16))).
  { intros s. destruct (DD s) as (D0 & D1 & D2 & _). unfold curve_divergence. rewrite T0, T1.
    assert (F0 : field_change F (front_normals F X [c]) c s 0 = -6 * (s - 1 / 2)).
    { unfold field_change. rewrite (sumn_ext _ _ (fun i => 3 / 20 * re_dshape F s i + (-3) * (z i ^ 2 * re_dshape F s i))).
      - rewrite sumn_plus, !sumn_scal, D0, D2. ring.
      - intros i Hi. rewrite (proj1 (NN i ltac:(lia))). ring. }
    assert (F1 : field_change F (front_normals F X [c]) c s 1 = -2 * (s - 1 / 2)).
    { unfold field_change. rewrite (sumn_ext _ _ (fun i => 21 / 20 * re_dshape F s i + (-1) * (z i ^ 2 * re_dshape F s i))).
      - rewrite sumn_plus, !sumn_scal, D0, D2. ring.
      - intros i Hi. rewrite (proj2 (NN i ltac:(lia))). ring. }
    rewrite F0, F1. f_equal; ring. }
  exists X, c. refine (conj P (conj _ (conj Z1 (conj _ _)))).
  - intros s. left. rewrite T0. lra.
  - rewrite C. field.
  - unfold front_curvature. change [c] with ([] ++ [c]) at 2. rewrite (proj1 (C98_stored_partial F X (front_normals F X [c]) [] c (fun _ => 0) 1 P ltac:(lia))). rewrite C, L1.
    replace ((1 / 2 - w - 1 / 2) ^ 2) with (w * w) by ring. rewrite W2.
    replace ((-6 * (1 / 2 - w - 1 / 2) - 2 * (1 / 2 - w - 1 / 2) * (15 / 4 * (1 / 20) - 3 / 16)) / (1 + (15 / 4 * (1 / 20) - 3 / 16) * (15 / 4 * (1 / 20) - 3 / 16))) with (6 * w) by field. lra.
Qed.
Print Assumptions C98_violation_location.

(** ** The geometry moves with the front *)
Lemma store_rel {A B} (Rl : A -> B -> Prop) (l : list (nat * A)) (l' : list (nat * B)) v v' :
  Forall2 (fun x y => fst x = fst y /\ Rl (snd x) (snd y)) l l' -> (forall a, Rl (v a) (v' a)) -> forall a, Rl (store l v a) (store l' v' a).
Proof.
  intros H. revert v v'. induction H as [|x y l l' [E1 E2] H IH]; intros v v' Hv a; [apply Hv|].
  cbn. apply IH. intros b. rewrite E1. destruct (Nat.eqb b (fst y)); [exact E2|apply Hv].
Qed.
Lemma writes_rel {A B} (Rl : A -> B -> Prop) F cells (f : fcell -> nat -> A) (g : fcell -> nat -> B) :
  (forall c i, Rl (f c i) (g c i)) -> Forall2 (fun x y => fst x = fst y /\ Rl (snd x) (snd y)) (writes F cells f) (writes F cells g).
Proof.
  intros H. unfold writes. induction cells as [|c cells IH]; cbn [flat_map]; [constructor|]. apply Forall2_app; [|exact IH].
  generalize (seq 0 (S (re_degree F))). induction l as [|i l IHl]; cbn; constructor; [split; [reflexivity|apply H]|exact IHl].
Qed.
(** rotation with cosine cs and sine sn, scaling by k, shift *)
Definition moved (cs sn k : R) (sh : nat -> R) (X : coords) : coords := fun a e =>
  match e with O => k * (cs * X a 0%nat - sn * X a 1%nat) + sh 0%nat | _ => k * (sn * X a 0%nat + cs * X a 1%nat) + sh 1%nat end.
Definition turned (cs sn : R) (n : nat -> R) (e : nat) : R := match e with O => cs * n 0%nat - sn * n 1%nat | _ => sn * n 0%nat + cs * n 1%nat end.
Theorem C98_moves_along : forall F X cells cs sn k sh, derives_constants F -> cs * cs + sn * sn = 1 -> 0 < k -> forall a,
  (forall e, (e < 2)%nat -> front_normals F (moved cs sn k sh X) cells a e = turned cs sn (front_normals F X cells a) e) /\
  front_curvature F (moved cs sn k sh X) cells a = front_curvature F X cells a / k.
Proof.
  intros F X cells cs sn k sh D0 HU Hk. set (Y := moved cs sn k sh X).
  assert (T0 : forall c s, tangent F Y c s 0 = k * (cs * tangent F X c s 0 - sn * tangent F X c s 1)).
  { intros c s. unfold tangent, Y, moved. rewrite (sumn_ext _ _ (fun i => (k * cs) * (X (c i) 0%nat * re_dshape F s i) + ((- k * sn) * (X (c i) 1%nat * re_dshape F s i) + sh 0%nat * re_dshape F s i))) by (intros; ring).
    rewrite !sumn_plus, !sumn_scal, D0. ring. }
  assert (T1 : forall c s, tangent F Y c s 1 = k * (sn * tangent F X c s 0 + cs * tangent F X c s 1)).
  { intros c s. unfold tangent, Y, moved. rewrite (sumn_ext _ _ (fun i => (k * sn) * (X (c i) 0%nat * re_dshape F s i) + ((k * cs) * (X (c i) 1%nat * re_dshape F s i) + sh 1%nat * re_dshape F s i))) by (intros; ring).
    rewrite !sumn_plus, !sumn_scal, D0. ring. }
  assert (S2 : forall c s, speed2 F Y c s = k * k * speed2 F X c s).
  { intros c s. unfold speed2. rewrite T0, T1. set (p := tangent F X c s 0). set (q := tangent F X c s 1).
    transitivity (k * k * ((cs * cs + sn * sn) * (p * p + q * q))); [ring|rewrite HU; ring]. }
  assert (SN : forall c s, 0 <= speed2 F X c s) by (intros; unfold speed2; pose proof (Rle_0_sqr (tangent F X c s 0)); pose proof (Rle_0_sqr (tangent F X c s 1)); unfold Rsqr in *; lra).
  assert (RN : forall a e, (e < 2)%nat -> front_normals F Y cells a e = turned cs sn (front_normals F X cells a) e).
  { intros a. unfold front_normals, compute_normal.
    apply (store_rel (fun (m n : nat -> R) => forall e, (e < 2)%nat -> m e = turned cs sn n e)).
    - apply (writes_rel (fun (m n : nat -> R) => forall e, (e < 2)%nat -> m e = turned cs sn n e)). intros c i e He. unfold curve_normal, turned. rewrite S2. set (s := support F i).
      destruct (Req_dec (speed2 F X c s) 0) as [Z|NZ].
      + rewrite Z, Rmult_0_r, sqrt_0. rewrite T0, T1. assert (Z0 : tangent F X c s 0 = 0 /\ tangent F X c s 1 = 0) by (unfold speed2 in Z; split; nra). destruct Z0 as [-> ->]. destruct e as [|[|e]]; [| |lia]; unfold Rdiv; ring.
      + assert (P : 0 < speed2 F X c s) by (specialize (SN c s); lra). pose proof (sqrt_lt_R0 _ P) as Q.
        rewrite sqrt_mult, sqrt_square by nra. rewrite T0, T1. destruct e as [|[|e]]; [| |lia]; field; lra.
    - intros b e He. unfold turned. destruct e as [|[|e]]; [| |lia]; ring. }
  intros a. split; [intros e He; apply RN; exact He|].
  unfold front_curvature, compute_curvature. apply (store_rel (fun x y => x = y / k)).
  - apply (writes_rel (fun x y => x = y / k)). intros c i. rewrite !normal_divergence_spec. unfold curve_divergence. set (s := re_lobatto F i).
    assert (F0 : field_change F (front_normals F Y cells) c s 0 = cs * field_change F (front_normals F X cells) c s 0 - sn * field_change F (front_normals F X cells) c s 1).
    { unfold field_change. rewrite (sumn_ext _ _ (fun j => cs * (front_normals F X cells (c j) 0%nat * re_dshape F s j) + (- sn) * (front_normals F X cells (c j) 1%nat * re_dshape F s j))) by (intros; rewrite RN by lia; unfold turned; ring).
      rewrite sumn_plus, !sumn_scal. ring. }
    assert (F1 : field_change F (front_normals F Y cells) c s 1 = sn * field_change F (front_normals F X cells) c s 0 + cs * field_change F (front_normals F X cells) c s 1).
    { unfold field_change. rewrite (sumn_ext _ _ (fun j => sn * (front_normals F X cells (c j) 0%nat * re_dshape F s j) + cs * (front_normals F X cells (c j) 1%nat * re_dshape F s j))) by (intros; rewrite RN by lia; unfold turned; ring).
      rewrite sumn_plus, !sumn_scal. ring. }
    fold (speed2 F Y c s). fold (speed2 F X c s). rewrite S2, F0, F1, T0, T1.
    set (f0 := field_change F (front_normals F X cells) c s 0). set (f1 := field_change F (front_normals F X cells) c s 1). set (p := tangent F X c s 0). set (q := tangent F X c s 1).
    replace ((cs * f0 - sn * f1) * (k * (cs * p - sn * q)) + (sn * f0 + cs * f1) * (k * (sn * p + cs * q))) with (k * ((cs * cs + sn * sn) * (f0 * p + f1 * q))) by ring. rewrite HU.
    destruct (Req_dec (speed2 F X c s) 0) as [Z|NZ].
    + assert (Z0 : p = 0 /\ q = 0) by (unfold speed2 in Z; fold p q in Z; split; nra). destruct Z0 as [-> ->]. unfold Rdiv. ring.
    + field. split; lra.
  - intros b. unfold Rdiv. ring.
Qed.
Print Assumptions C98_moves_along.

(** ** Inside and outside *)
(** convex hull: every half plane that contains the points contains p *)
Definition hull (l : list (R * R)) (p : R * R) : Prop :=
  forall a b r, (forall q, In q l -> r <= a * fst q + b * snd q) -> r <= a * fst p + b * snd p.
(** contract of boost::geometry::within: a point inside of a polygon is in the hull of its corners *)
Definition sound (inside : list (R * R) -> R * R -> bool) : Prop := forall l p, inside l p = true -> hull l p.
Lemma in_polygon F X cells l q : construct_polygon F X cells = Some l -> In q l -> exists c s, In c cells /\ In s (re_gauss F) /\ q = (curve_point F X c s 0, curve_point F X c s 1).
Proof.
  unfold construct_polygon. set (pts := flat_map _ cells). intros E H.
  assert (A : forall q, In q pts -> exists c s, In c cells /\ In s (re_gauss F) /\ q = (curve_point F X c s 0, curve_point F X c s 1)).
  { intros p Hp. unfold pts in Hp. apply in_flat_map in Hp. destruct Hp as (c & Hc & Hp). apply in_map_iff in Hp. destruct Hp as (s & <- & Hs). exists c, s. auto. }
  clearbody pts. destruct pts as [|p ps]; [discriminate|]. injection E as <-. apply A. cbn in H. destruct H as [H|H]; [left; exact H|]. apply in_app_or in H. destruct H as [H|[H|[]]]; [right; exact H|left; exact H].
Qed.
(** points with the properties of the inner fluid are in every half plane that contains the front *)
Theorem C98_inside_partial : forall F X cells polygon inside value diff x a b r, sound inside -> construct_polygon F X cells = Some polygon ->
  (forall c s, In c cells -> 0 <= s <= 1 -> r <= a * curve_point F X c s 0 + b * curve_point F X c s 1) -> (forall s, In s (re_gauss F) -> 0 <= s <= 1) ->
  front_property inside polygon value diff x = value \/ (front_property inside polygon value diff x = value + diff /\ r <= a * x 0%nat + b * x 1%nat).
Proof.
  intros F X cells polygon inside value diff x a b r HS E HX HG. unfold front_property, within.
  destruct (inside polygon (x 0%nat, x 1%nat)) eqn:I; [right|left; ring]. split; [ring|].
  apply (HS _ _ I a b r). intros q Hq. destruct (in_polygon F X cells polygon q E Hq) as (c & s & Hc & Hs & ->). apply HX; [exact Hc|apply HG; exact Hs].
Qed.
(** the polygon exists for every front with cells *)
Theorem C98_polygon_defined : forall F X cells, construct_polygon F X cells = None <-> (cells = [] \/ re_gauss F = []).
Proof.
  intros F X cells. unfold construct_polygon. destruct cells as [|c cells]; [cbn; tauto|]. destruct (re_gauss F) as [|s g] eqn:G.
  - cbn. assert (E : flat_map (fun _ : fcell => []) cells = (@nil (R * R))) by (induction cells; auto). rewrite E. tauto.
  - cbn. split; [discriminate|intros [H|H]; discriminate].
Qed.
(** contract of the element: values *)
Definition reproduces_linear (F : refel) : Prop := forall s,
  sumn (S (re_degree F)) (re_shape F s) = 1 /\ sumn (S (re_degree F)) (fun i => support F i * re_shape F s i) = s.
Lemma straight_point F X c P Q s e : reproduces_linear F -> straight F X c P Q -> curve_point F X c s e = P e + s * (Q e - P e).
Proof.
  intros HL HS. unfold curve_point. destruct (HL s) as [L0 L1]. rewrite (sumn_ext _ _ (fun i => P e * re_shape F s i + (Q e - P e) * (support F i * re_shape F s i))).
  - rewrite sumn_plus, !sumn_scal, L0, L1. ring.
  - intros i Hi. rewrite HS by lia. ring.
Qed.
(** Violated at corners: the polygon connects Gauss points, which are never at the ends of the cells.  The front of the unit square with four
    straight cells: the point (g/3, g/3) is inside of the square, but gets the properties of the outer fluid *)
Definition corner (j e : nat) : R := match j, e with 1%nat, O => 1 | 2%nat, _ => 1 | 3%nat, 1%nat => 1 | _, _ => 0 end.
Definition square_cell (k j : nat) : fcell := fun i => match i with O => j | S O => (S j) mod 4 | S (S m) => (4 + j * k + m)%nat end.
Definition square_nodes (F : refel) : coords := fun a e =>
  if Nat.ltb a 4 then corner a e else let j := ((a - 4) / re_degree F)%nat in let m := ((a - 4) mod re_degree F)%nat in
  corner j e + support F (S (S m)) * (corner (S j mod 4) e - corner j e).
Lemma square_straight F j : (j < 4)%nat -> (1 <= re_degree F)%nat -> at_left F -> at_right F -> straight F (square_nodes F) (square_cell (re_degree F) j) (corner j) (corner (S j mod 4)).
Proof.
  intros Hj Hk HL HR i e Hi. unfold square_nodes, square_cell. destruct i as [|[|m]].
  - rewrite (proj2 (Nat.ltb_lt j 4) Hj). change (support F 0) with (re_lobatto F 0). rewrite HL. ring.
  - rewrite (proj2 (Nat.ltb_lt (S j mod 4) 4)) by (apply Nat.mod_upper_bound; lia). change (support F 1) with (re_lobatto F (re_degree F)). rewrite HR. ring.
  - rewrite (proj2 (Nat.ltb_ge (4 + j * re_degree F + m) 4)) by lia. replace (4 + j * re_degree F + m - 4)%nat with (j * re_degree F + m)%nat by lia.
    rewrite Nat.div_add_l, Nat.div_small, Nat.add_0_r by lia. rewrite Nat.add_comm, Nat.mod_add, Nat.mod_small by lia. reflexivity.
Qed.
Theorem C98_violation_corner : forall F g inside value diff, reproduces_linear F -> (1 <= re_degree F)%nat -> at_left F -> at_right F ->
  0 < g -> (forall s, In s (re_gauss F) -> g <= s <= 1 - g) -> sound inside ->
  let cells := map (square_cell (re_degree F)) [0; 1; 2; 3]%nat in let x := fun _ : nat => g / 3 in
  (forall c s, In c cells -> exists e v, (e < 2)%nat /\ (v = 0 \/ v = 1) /\ curve_point F (square_nodes F) c s e = v) /\
  forall polygon, construct_polygon F (square_nodes F) cells = Some polygon -> front_property inside polygon value diff x = value.
Proof.
  intros F g inside value diff HL Hk A0 A1 Hg HG HS cells x.
  assert (PT : forall j s e, (j < 4)%nat -> curve_point F (square_nodes F) (square_cell (re_degree F) j) s e = corner j e + s * (corner (S j mod 4) e - corner j e)).
  { intros j s e Hj. apply straight_point; [exact HL|]. apply square_straight; assumption. }
  split.
  - intros c s Hc. apply in_map_iff in Hc. destruct Hc as (j & <- & Hj). cbn in Hj.
    destruct Hj as [<-|[<-|[<-|[<-|[]]]]].
    + exists 1%nat, 0. refine (conj _ (conj _ _)); [lia|auto|rewrite PT by lia; cbn; ring].
    + exists 0%nat, 1. refine (conj _ (conj _ _)); [lia|auto|rewrite PT by lia; cbn; ring].
    + exists 1%nat, 1. refine (conj _ (conj _ _)); [lia|auto|rewrite PT by lia; cbn; ring].
    + exists 0%nat, 0. refine (conj _ (conj _ _)); [lia|auto|rewrite PT by lia; cbn; ring].
  - intros polygon E. unfold front_property, within. destruct (inside polygon (x 0%nat, x 1%nat)) eqn:I; [exfalso|ring].
    assert (H : g <= 1 * fst (x 0%nat, x 1%nat) + 1 * snd (x 0%nat, x 1%nat)).
    { apply (HS _ _ I 1 1 g). intros q Hq. destruct (in_polygon _ _ _ _ _ E Hq) as (c & s & Hc & Hs & ->). specialize (HG s Hs). cbn [fst snd].
      apply in_map_iff in Hc. destruct Hc as (j & <- & Hj). cbn in Hj. destruct Hj as [<-|[<-|[<-|[<-|[]]]]]; rewrite !PT by lia; cbn; lra. }
    cbn in H. unfold x in H. lra.
Qed.
Print Assumptions C98_violation_corner.
(** Violated in three dimensions: points above each other always get the same properties *)
Theorem C98_violation_three_dimensions : forall inside polygon value diff x h,
  front_property inside polygon value diff x = front_property inside polygon value diff (fun e => if Nat.eqb e 2 then h else x e).
Proof. reflexivity. Qed.

(** ** The hypotheses are met: the element of degree 3 *)
Definition cubic_element : refel :=
  let w := lobatto_width in
  MkRef 3 (fun i => match i with 0%nat => 0 | 1%nat => 1 / 2 - w | 2%nat => 1 / 2 + w | _ => 1 end) [1 / 10; 1 / 3; 2 / 3; 9 / 10]
    (fun s i => match i with 0%nat => 1 - s | 1%nat => s | _ => 0 end)
    (fun s i => let z := s - 1 / 2 in match i with
       | 0%nat => 5 * z - (15 * (z * z) - 1 / 4) | 1%nat => 5 * z + (15 * (z * z) - 1 / 4)
       | 2%nat => - 5 * z - w * (25 / 2 - 150 * (z * z)) | _ => - 5 * z + w * (25 / 2 - 150 * (z * z)) end).
(** a (very coarse) inside test that meets the contract *)
Definition pair_eq_dec (p q : R * R) : {p = q} + {p <> q}.
Proof.
  destruct p as [a b], q as [c d]. destruct (Req_EM_T a c) as [->|N]; [|right; congruence]. destruct (Req_EM_T b d) as [->|N]; [left; reflexivity|right; congruence].
Defined.
Definition corner_test (l : list (R * R)) (p : R * R) : bool := if in_dec pair_eq_dec p l then true else false.
Example C98_nonvacuous : cubic cubic_element /\ reproduces_linear cubic_element /\ at_left cubic_element /\ at_right cubic_element /\ sound corner_test /\
  (forall s, In s (re_gauss cubic_element) -> 1 / 10 <= s <= 1 - 1 / 10).
Proof.
  refine (conj _ (conj _ (conj eq_refl (conj eq_refl (conj _ _))))).
  - refine (conj eq_refl (conj _ (conj eq_refl (conj eq_refl (conj eq_refl eq_refl))))).
    intros s j Hj. pose proof lobatto_width_sq as W. unfold support. cbn [re_degree cubic_element hierarchic re_lobatto re_dshape sumn]. set (w := lobatto_width) in *. set (z := s - 1 / 2).
    destruct j as [|[|[|[|j]]]]; [| | | |lia]; cbn [INR pred pow]; clearbody z w.
    + ring.
    + transitivity (15 * (z * z) - 1 / 4 + (w * w) * (25 - 300 * (z * z))); [field|rewrite W; field].
    + transitivity (10 * z * (1 / 4 - w * w)); [field|rewrite W; field].
    + transitivity ((15 * (z * z) - 1 / 4) / 4 + (w * w) * (w * w) * (25 - 300 * (z * z))); [field|rewrite W; field].
  - intros s. unfold support. cbn [re_degree cubic_element hierarchic re_lobatto re_shape sumn]. split; ring.
  - intros l p H a b r Hr. unfold corner_test in H. destruct (in_dec pair_eq_dec p l) as [I|I]; [apply Hr; exact I|discriminate].
  - intros s H. cbn in H. destruct H as [<-|[<-|[<-|[<-|[]]]]]; lra.
Qed.
