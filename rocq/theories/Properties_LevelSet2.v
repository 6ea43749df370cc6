(** * Fluid properties and the Heaviside field: C39, C40 *)
From Coq Require Import Reals List Bool Ratan Lra Lia Permutation.
From Coquelicot Require Import Rcomplements.
From Verif Require Import SumR Model_Bubble Properties_Bubble Model_LevelSet Properties_LevelSet.
Import ListNotations.
Open Scope R_scope.

(** ** C39 *)
(** between the values of the two fluids, base and base + diff *)
Definition between_phases (base diff v : R) : Prop := Rmin base (base + diff) <= v <= Rmax base (base + diff).
Lemma mixture_between base diff h : 0 <= h <= 1 -> between_phases base diff (mixture base diff h).
Proof.
  intros H. unfold between_phases, mixture. destruct (Rle_dec 0 diff).
  - rewrite Rmin_left, Rmax_right by lra. nra.
  - rewrite Rmin_right, Rmax_left by lra. nra.
Qed.
(** interpolation at points where the shape values are non-negative and sum to one *)
Definition convex_weights (n : nat) (shape : nat -> R) : Prop := (forall j, (j < n)%nat -> 0 <= shape j) /\ sumn n shape = 1.
Lemma fe_value_bounds n nodal shape lo hi : convex_weights n shape -> (forall j, (j < n)%nat -> lo <= nodal j <= hi) -> lo <= fe_value n nodal shape <= hi.
Proof.
  intros [Hp Hs] Hn. assert (G : forall m, (m <= n)%nat -> lo * sumn m shape <= sumn m (fun j => nodal j * shape j) <= hi * sumn m shape).
  { induction m; intros Hm; cbn; [lra|]. specialize (IHm ltac:(lia)). specialize (Hp m ltac:(lia)). specialize (Hn m ltac:(lia)). nra. }
  specialize (G n (le_n n)). rewrite Hs in G. unfold fe_value. lra.
Qed.
Theorem C39_level_set : forall base diff n heaviside shape,
  convex_weights n shape -> (forall j, (j < n)%nat -> 0 <= heaviside j <= 1) ->
  between_phases base diff (okz_property base diff n heaviside shape).
Proof. intros. apply mixture_between. apply fe_value_bounds; assumption. Qed.
Theorem C39_faces : forall base diff n heaviside shape,
  convex_weights n shape -> (forall j, (j < n)%nat -> 0 <= heaviside j <= 1) ->
  between_phases base diff (face_density base diff n heaviside shape).
Proof. intros. unfold face_density. rewrite Rmult_comm. apply mixture_between. apply fe_value_bounds; assumption. Qed.
(** phase field: no condition on the nodal values or the shape functions *)
Theorem C39_phase_field : forall base diff n ls shape, between_phases base diff (phase_field_property base diff n ls shape).
Proof.
  intros. apply mixture_between. split.
  - apply Rmin_glb; [lra|apply Rmax_l].
  - apply Rmin_l.
Qed.
(** the clipping is inactive inside of [-1, 1]; the ends belong to the pure phases *)
Theorem C39_phase_field_values : forall base diff n ls shape, -1 <= fe_value n ls shape <= 1 ->
  phase_field_property base diff n ls shape = base + diff * ((fe_value n ls shape + 1) / 2).
Proof. intros. unfold phase_field_property, mixture. rewrite Rmax_right, Rmin_right by lra. lra. Qed.
(** the sharp interface solver does not clip: outside of [-1, 1] the density leaves the range of the phases *)
Theorem C39_sharp_interface_range : forall base diff n ls shape, diff <> 0 ->
  (between_phases base diff (sharp_interface_property base diff n ls shape) <-> -1 <= fe_value n ls shape <= 1).
Proof.
  intros base diff n ls shape Hd. unfold sharp_interface_property. set (v := fe_value n ls shape). split.
  - unfold between_phases, mixture. destruct (Rle_dec 0 diff).
    + rewrite Rmin_left, Rmax_right by lra. nra.
    + rewrite Rmin_right, Rmax_left by lra. nra.
  - intros. apply mixture_between. lra.
Qed.
Theorem C39_violation_sharp_interface : exists base diff n ls shape,
  0 < base /\ 0 < base + diff /\ convex_weights n shape /\ sharp_interface_property base diff n ls shape < 0.
Proof.
  exists 1, (-9/10), 1%nat, (fun _ => 2), (fun _ => 1). unfold convex_weights, sharp_interface_property, mixture, fe_value. cbn. repeat split; try lra. intros; lra.
Qed.
Print Assumptions C39_level_set.
Print Assumptions C39_faces.
Print Assumptions C39_phase_field.
Print Assumptions C39_phase_field_values.
Print Assumptions C39_sharp_interface_range.
Print Assumptions C39_violation_sharp_interface.
Example C39_nonvacuous : convex_weights 2 (fun j => if Nat.eqb j 0 then 1/4 else 3/4) /\ okz_property 1 999 2 (fun j => if Nat.eqb j 0 then 0 else 1/2) (fun j => if Nat.eqb j 0 then 1/4 else 3/4) = 1 + 999 * (3/8).
Proof. unfold convex_weights, okz_property, mixture, fe_value. cbn. repeat split; try lra. intros [|j] _; cbn; lra. Qed.

(** ** C40 *)
Lemma tanh2_range : 0 < cutoff < 1.
Proof.
  unfold cutoff, tanh, sinh, cosh. assert (P : 0 < exp 2) by apply exp_pos. assert (N : 0 < exp (- (2))) by apply exp_pos.
  assert (L : exp (- (2)) < exp 2) by (apply exp_increasing; lra). split.
  - apply Rdiv_lt_0_compat; lra.
  - apply Rlt_div_l; lra.
Qed.
Lemma ln_cutoff : ln ((1 + cutoff) / (1 - cutoff)) = 4.
Proof.
  assert (P : 0 < exp 2) by apply exp_pos. assert (N : 0 < exp (- (2))) by apply exp_pos.
  replace ((1 + cutoff) / (1 - cutoff)) with (exp 4); [apply ln_exp|].
  unfold cutoff, tanh, sinh, cosh. replace (exp 4) with (exp 2 * exp 2) by (rewrite <- exp_plus; f_equal; ring).
  assert (E : exp (- (2)) * exp 2 = 1) by (rewrite <- exp_plus, Rplus_opp_l; apply exp_0).
  apply (Rmult_eq_reg_r (exp (- (2)))); [|lra]. replace (exp 2 * exp 2 * exp (- (2))) with (exp 2 * (exp (- (2)) * exp 2)) by ring. rewrite E.
  field. lra.
Qed.
Lemma node_distance_mid c : - cutoff <= c <= cutoff -> node_distance c = ln ((1 + c) / (1 - c)).
Proof. intros H. unfold node_distance. rewrite !Rltb_false by lra. reflexivity. Qed.
Lemma node_distance_high c : cutoff < c -> node_distance c = 3.
Proof. intros H. pose proof tanh2_range. unfold node_distance. rewrite Rltb_false, Rltb_true by lra. reflexivity. Qed.
Lemma node_distance_low c : c < - cutoff -> node_distance c = -3.
Proof. intros H. unfold node_distance. rewrite Rltb_true by lra. reflexivity. Qed.
Lemma ln_ratio_mono c d : -1 < c -> c <= d -> d < 1 -> ln ((1 + c) / (1 - c)) <= ln ((1 + d) / (1 - d)).
Proof.
  intros. assert (Hq : (1 + c) / (1 - c) <= (1 + d) / (1 - d)).
  { apply Rmult_le_compat; [lra|left; apply Rinv_0_lt_compat; lra|lra|apply Rinv_le_contravar; lra]. }
  destruct Hq as [Hq|Hq]; [|rewrite Hq; lra]. left. apply ln_increasing; [apply Rdiv_lt_0_compat; lra|exact Hq].
Qed.
Lemma ln_ratio_odd c : -1 < c < 1 -> ln ((1 + - c) / (1 - - c)) = - ln ((1 + c) / (1 - c)).
Proof.
  intros. rewrite <- ln_Rinv by (apply Rdiv_lt_0_compat; lra). f_equal. field. lra.
Qed.
Lemma ln_low : ln ((1 + - cutoff) / (1 - - cutoff)) = -4.
Proof. pose proof tanh2_range. rewrite ln_ratio_odd, ln_cutoff by lra. reflexivity. Qed.

Lemma node_heaviside_high scale c : 2/3 <= scale -> cutoff <= c -> node_heaviside scale c = 1.
Proof.
  intros Hs Hc. unfold node_heaviside. apply C38_outside. destruct (Rle_dec c cutoff).
  - assert (c = cutoff) by lra. subst. pose proof tanh2_range. rewrite node_distance_mid, ln_cutoff by lra. lra.
  - rewrite node_distance_high by lra. lra.
Qed.
Lemma node_heaviside_low scale c : 2/3 <= scale -> c <= - cutoff -> node_heaviside scale c = 0.
Proof.
  intros Hs Hc. unfold node_heaviside. apply C38_outside. destruct (Rle_dec (- cutoff) c).
  - assert (c = - cutoff) by lra. subst. pose proof tanh2_range. rewrite node_distance_mid, ln_low by lra. lra.
  - rewrite node_distance_low by lra. lra.
Qed.

Lemma fold_set_node (v : nat -> R) dofs h i : fold_left (fun h i => set_node h i (v i)) dofs h i = if existsb (Nat.eqb i) dofs then v i else h i.
Proof.
  revert h. induction dofs as [|d l IH]; intros h; [reflexivity|]. cbn [fold_left existsb]. rewrite IH. unfold set_node.
  destruct (existsb (Nat.eqb i) l); [rewrite orb_true_r; reflexivity|]. rewrite orb_false_r. destruct (Nat.eqb_spec i d) as [->|]; reflexivity.
Qed.
Lemma existsb_eqb i l : existsb (Nat.eqb i) l = true <-> In i l.
Proof. rewrite existsb_exists. split; [intros (x & H & E); apply Nat.eqb_eq in E; subst; exact H|intros H; exists i; split; [exact H|apply Nat.eqb_refl]]. Qed.

(** the cell resolves the interface: if all its nodes are beyond the cutoff, they are on the same side *)
Definition one_sided (c : nat -> R) (dofs : list nat) : Prop :=
  (forall i, In i dofs -> cutoff <= Rabs (c i)) -> forall i j, In i dofs -> In j dofs -> (c i < 0 <-> c j < 0).
Lemma not_considered c dofs : consider_cell c dofs = false -> forall i, In i dofs -> cutoff <= Rabs (c i).
Proof.
  intros H i Hi. unfold consider_cell in H. destruct (Rlt_dec (Rabs (c i)) cutoff) as [L|L]; [|lra]. exfalso.
  assert (existsb (fun i => Rltb (Rabs (c i)) cutoff) dofs = true) by (apply existsb_exists; exists i; split; [exact Hi|apply Rltb_true; exact L]). congruence.
Qed.
Lemma heaviside_cell_spec scale c h dofs i : 2/3 <= scale -> one_sided c dofs ->
  heaviside_cell scale c h dofs i = if existsb (Nat.eqb i) dofs then node_heaviside scale (c i) else h i.
Proof.
  intros Hs H1. unfold heaviside_cell. destruct (consider_cell c dofs) eqn:E.
  - apply (fold_set_node (fun i => node_heaviside scale (c i))).
  - pose proof (not_considered c dofs E) as Hc. specialize (H1 Hc). destruct dofs as [|d0 l]; [reflexivity|].
    set (dofs := d0 :: l) in *. destruct (Rlt_dec (c d0) 0) as [L|L].
    + rewrite Rltb_true by exact L. rewrite (fold_set_node (fun _ => 0)). destruct (existsb (Nat.eqb i) dofs) eqn:Ei; [|reflexivity].
      apply existsb_eqb in Ei. symmetry. apply node_heaviside_low; [exact Hs|]. assert (c i < 0) by (apply (H1 d0 i); [left; reflexivity|exact Ei|exact L]).
      specialize (Hc i Ei). rewrite Rabs_left in Hc by lra. lra.
    + rewrite Rltb_false by lra. rewrite (fold_set_node (fun _ => 1)). destruct (existsb (Nat.eqb i) dofs) eqn:Ei; [|reflexivity].
      apply existsb_eqb in Ei. symmetry. apply node_heaviside_high; [exact Hs|]. assert (~ c i < 0) by (intros F; apply L; apply (H1 d0 i); [left; reflexivity|exact Ei|exact F]).
      specialize (Hc i Ei). rewrite Rabs_right in Hc by lra. lra.
Qed.
(** the field is a function of the nodal level set value: every node of the mesh, whatever the cells and their order *)
Theorem C40_nodal : forall epsilon subdivisions c cells h i dofs,
  0 < subdivisions -> 2 * subdivisions <= 6 * epsilon -> (forall d, In d cells -> one_sided c d) ->
  In dofs cells -> In i dofs ->
  compute_heaviside (heaviside_scale epsilon subdivisions) c cells h i = node_heaviside (heaviside_scale epsilon subdivisions) (c i).
Proof.
  intros epsilon subdivisions c cells h i dofs Hsub He H1 Hd Hi.
  assert (Hs : 2/3 <= heaviside_scale epsilon subdivisions).
  { unfold heaviside_scale. apply (Rle_div_r (2/3)); lra. }
  set (scale := heaviside_scale epsilon subdivisions) in *. clearbody scale. unfold compute_heaviside.
  assert (G : forall cells h, (forall d, In d cells -> one_sided c d) ->
    fold_left (heaviside_cell scale c) cells h i = if existsb (existsb (Nat.eqb i)) cells then node_heaviside scale (c i) else h i).
  { clear - Hs. induction cells as [|d l IH]; intros h H1; [reflexivity|]. cbn [fold_left existsb]. rewrite IH by (intros; apply H1; right; assumption).
    rewrite heaviside_cell_spec by (try exact Hs; apply H1; left; reflexivity). destruct (existsb (existsb (Nat.eqb i)) l); [rewrite orb_true_r; reflexivity|].
    rewrite orb_false_r. reflexivity. }
  rewrite G by exact H1. rewrite (proj2 (existsb_exists (existsb (Nat.eqb i)) cells)); [reflexivity|]. exists dofs. split; [exact Hd|apply existsb_eqb; exact Hi].
Qed.
Corollary C40_order : forall epsilon subdivisions c cells cells' h h' i dofs,
  0 < subdivisions -> 2 * subdivisions <= 6 * epsilon -> (forall d, In d cells -> one_sided c d) ->
  Permutation cells cells' -> In dofs cells -> In i dofs ->
  compute_heaviside (heaviside_scale epsilon subdivisions) c cells h i = compute_heaviside (heaviside_scale epsilon subdivisions) c cells' h' i.
Proof.
  intros. rewrite (C40_nodal epsilon subdivisions c cells h i dofs), (C40_nodal epsilon subdivisions c cells' h' i dofs); try assumption; try reflexivity.
  - intros d Hd. apply H1. eapply Permutation_in; [symmetry; eassumption|exact Hd].
  - eapply Permutation_in; eassumption.
Qed.
(** values: in [0, 1], 1/2 at the interface, monotone in the level set value *)
Theorem C40_monotone : forall epsilon subdivisions c d,
  0 < subdivisions -> 2 * subdivisions <= 6 * epsilon -> c <= d ->
  0 <= node_heaviside (heaviside_scale epsilon subdivisions) c <= node_heaviside (heaviside_scale epsilon subdivisions) d /\
  node_heaviside (heaviside_scale epsilon subdivisions) d <= 1.
Proof.
  intros epsilon subdivisions c d Hsub He H. assert (Hs : 2/3 <= heaviside_scale epsilon subdivisions).
  { unfold heaviside_scale. apply (Rle_div_r (2/3)); lra. }
  set (s := heaviside_scale epsilon subdivisions) in *. clearbody s. pose proof tanh2_range.
  split; [split|]; [apply C38_range| |apply C38_range].
  destruct (Rle_dec cutoff d). { rewrite (node_heaviside_high s d) by lra. apply C38_range. }
  destruct (Rle_dec c (- cutoff)). { rewrite (node_heaviside_low s c) by lra. apply C38_range. }
  unfold node_heaviside. apply C38_monotone. rewrite !node_distance_mid by lra. apply Rmult_le_compat_r; [lra|]. apply ln_ratio_mono; lra.
Qed.
Theorem C40_midpoint : forall scale, node_heaviside scale 0 = 1/2.
Proof.
  intros. pose proof tanh2_range. unfold node_heaviside. rewrite node_distance_mid by lra. replace ((1 + 0) / (1 - 0)) with 1 by field. rewrite ln_1, Rmult_0_l.
  pose proof (C38_symmetric 0) as S. rewrite Ropp_0 in S. lra.
Qed.
(** strict monotonicity of the discrete Heaviside function inside of its support *)
Lemma delta_positive x : -2 < x < 2 -> 0 < discrete_delta x.
Proof.
  assert (G : forall x, -2 < x <= 0 -> 0 < discrete_delta x).
  { intros y H. destruct (Rle_dec y (-1)) as [H1|H1].
    - rewrite delta_on_left by lra. assert (S : sqrt (-7 - 12 * y - 4 * y * y) < 5 + 2 * y).
      { rewrite <- (sqrt_square (5 + 2 * y)) by lra. apply sqrt_lt_1_alt. nra. } lra.
    - rewrite delta_on_right by lra. pose proof (sqrt_pos (1 - 4 * y - 4 * y * y)). lra. }
  intros H. destruct (Rle_dec x 0); [apply G; lra|]. rewrite <- C37_even. apply G. lra.
Qed.
Lemma heaviside_strict x y : -2 < x -> x < 2 -> x < y -> discrete_heaviside x < discrete_heaviside y.
Proof.
  intros H1 H2 H3. apply Rlt_le_trans with (discrete_heaviside (Rmin y 2)); [|apply C38_monotone, Rmin_l].
  assert (x < Rmin y 2) by (apply Rmin_glb_lt; lra). pose proof (Rmin_r y 2).
  destruct (MVT_cor2 discrete_heaviside discrete_delta x (Rmin y 2)) as (z & E & Hz); [lra|intros; apply C38_derivative|].
  assert (0 < discrete_delta z) by (apply delta_positive; lra). nra.
Qed.
(** for every smaller epsilon the clipped distance makes a node in the fluid less filled than one at the cutoff *)
Theorem C40_violation_monotone : forall epsilon subdivisions, 0 < subdivisions -> 0 < epsilon -> 6 * epsilon < 2 * subdivisions ->
  exists c d, c < d /\ node_heaviside (heaviside_scale epsilon subdivisions) d < node_heaviside (heaviside_scale epsilon subdivisions) c.
Proof.
  intros epsilon subdivisions Hsub He H. assert (Hs : 0 < heaviside_scale epsilon subdivisions < 2/3).
  { unfold heaviside_scale. split; [apply Rdiv_lt_0_compat; lra|apply Rlt_div_l; lra]. }
  set (s := heaviside_scale epsilon subdivisions) in *. clearbody s. pose proof tanh2_range.
  exists cutoff, 1. split; [lra|]. unfold node_heaviside. rewrite node_distance_high, node_distance_mid, ln_cutoff by lra. apply heaviside_strict; lra.
Qed.
(** ... and the value of a shared node depends on the order of the two cells *)
Theorem C40_violation_order : forall epsilon subdivisions, 0 < subdivisions -> 0 < epsilon -> 6 * epsilon < 2 * subdivisions ->
  exists c cell1 cell2 i, In i cell1 /\ In i cell2 /\ (forall d, In d [cell1; cell2] -> one_sided c d) /\
    forall h, compute_heaviside (heaviside_scale epsilon subdivisions) c [cell1; cell2] h i = 1 /\
              compute_heaviside (heaviside_scale epsilon subdivisions) c [cell2; cell1] h i < 1.
Proof.
  intros epsilon subdivisions Hsub He H. assert (Hs : 0 < heaviside_scale epsilon subdivisions < 2/3).
  { unfold heaviside_scale. split; [apply Rdiv_lt_0_compat; lra|apply Rlt_div_l; lra]. }
  set (s := heaviside_scale epsilon subdivisions) in *. clearbody s. pose proof tanh2_range.
  exists (fun i => if Nat.eqb i 0 then 0 else 1), [0;1]%nat, [1;2]%nat, 1%nat.
  assert (A : consider_cell (fun i => if Nat.eqb i 0 then 0 else 1) [0;1]%nat = true).
  { unfold consider_cell. cbn. rewrite Rabs_R0, Rltb_true by lra. reflexivity. }
  assert (B : consider_cell (fun i => if Nat.eqb i 0 then 0 else 1) [1;2]%nat = false).
  { unfold consider_cell. cbn. rewrite Rabs_R1, Rltb_false by lra. reflexivity. }
  split; [right; left; reflexivity|]. split; [left; reflexivity|]. split.
  - intros d [<-|[<-|[]]] Hc.
    + specialize (Hc 0%nat (or_introl eq_refl)). cbn in Hc. rewrite Rabs_R0 in Hc. lra.
    + intros i j [<-|[<-|[]]] [<-|[<-|[]]]; cbn; lra.
  - intros h. unfold compute_heaviside, fold_left, heaviside_cell. rewrite A, B. cbn. rewrite Rltb_false by lra. unfold set_node. cbn. split; [reflexivity|].
    unfold node_heaviside. rewrite node_distance_high by lra. destruct (C38_outside 2) as [_ U]. rewrite <- (U ltac:(lra)). apply heaviside_strict; lra.
Qed.
(** a cell whose nodes jump over the cutoff range gets the phase of its first node, for every epsilon *)
Theorem C40_violation_unresolved : forall scale, exists c cell1 cell2 i, In i cell1 /\ In i cell2 /\ c i = -1 /\
    forall h, compute_heaviside scale c [cell1; cell2] h i = 1 /\ compute_heaviside scale c [cell2; cell1] h i = 0.
Proof.
  intros scale. pose proof tanh2_range. exists (fun i => if Nat.eqb i 0 then 1 else -1), [1;2]%nat, [0;1]%nat, 1%nat.
  assert (A1 : Rabs (-1) = 1) by (rewrite Rabs_left by lra; lra).
  assert (A : consider_cell (fun i => if Nat.eqb i 0 then 1 else -1) [0;1]%nat = false).
  { unfold consider_cell. cbn. rewrite Rabs_R1, A1, Rltb_false by lra. reflexivity. }
  assert (B : consider_cell (fun i => if Nat.eqb i 0 then 1 else -1) [1;2]%nat = false).
  { unfold consider_cell. cbn. rewrite A1, Rltb_false by lra. reflexivity. }
  split; [left; reflexivity|]. split; [right; left; reflexivity|]. split; [reflexivity|]. intros h.
  unfold compute_heaviside, fold_left, heaviside_cell. rewrite A, B. cbn.
  rewrite (Rltb_true (-1) 0), (Rltb_false 1 0) by lra. unfold set_node. cbn. split; reflexivity.
Qed.
Print Assumptions C40_nodal.
Print Assumptions C40_order.
Print Assumptions C40_monotone.
Print Assumptions C40_midpoint.
Print Assumptions C40_violation_monotone.
Print Assumptions C40_violation_order.
Print Assumptions C40_violation_unresolved.
(** default parameters: epsilon 1, subdivisions 2; an interface between node 0 and node 2 *)
Example C40_nonvacuous : 2 * 2 <= 6 * 1 /\ (forall d, In d [[0;1];[1;2]]%nat -> one_sided (fun i => if Nat.eqb i 0 then -1 else if Nat.eqb i 1 then 0 else 1) d).
Proof.
  split; [lra|]. pose proof tanh2_range. intros d [<-|[<-|[]]] Hc; exfalso; specialize (Hc 1%nat); cbn in Hc; rewrite Rabs_R0 in Hc; (assert (cutoff <= 0); [apply Hc; auto|lra]).
Qed.
