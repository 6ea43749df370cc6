(** * Bubble statistics, part 2: C34 (weights), C35 (parallel reduction), C60 (extrapolation) *)
From Coq Require Import Reals List Bool Lra Lia Arith Permutation FunctionalExtensionality.
From Verif Require Import SumR Model_Indices Properties_Indices Model_Bubble Properties_Bubble.
Import ListNotations.
Open Scope R_scope.

(** ** C34: the weights of the sub-cells add up to the weights of the cell *)
Lemma sumn_add a b f : sumn (a + b) f = sumn a f + sumn b (fun i => f (a + i)%nat).
Proof.
  induction b as [|b IH]; cbn; [rewrite Nat.add_0_r; lra|]. rewrite Nat.add_succ_r. cbn. rewrite IH. lra.
Qed.
Lemma sumn_grid n m f : sumn (n * m) f = sumn m (fun y => sumn n (fun x => f (x + n * y)%nat)).
Proof.
  induction m as [|m IH]; [rewrite Nat.mul_0_r; reflexivity|]. rewrite Nat.mul_succ_r, sumn_add, IH. cbn [sumn]. f_equal.
  apply sumn_ext. intros. f_equal. lia.
Qed.
Lemma trapezoid_1d s (w : nat -> R) f : (1 <= s)%nat -> (forall x, (x <= s)%nat -> w x = if (0 <? x)%nat && (x <? s)%nat then 5/10 else 1) ->
  sumn s (fun x => f x * w x + f (x + 1)%nat * w (x + 1)%nat) = sumn (s + 1) f.
Proof.
  intros Hs Hw.
  assert (G : forall k, (1 <= k <= s)%nat -> sumn k (fun x => f x * w x + f (x + 1)%nat * w (x + 1)%nat) + (if (k <? s)%nat then f k * (5/10) else 0) = sumn (k + 1) f).
  { induction k as [|k IH]; [lia|]. intros Hk. rewrite Nat.add_1_r. cbn [sumn]. replace (k + 1)%nat with (S k) in * by lia.
    destruct (Nat.eq_dec k 0) as [->|Hk0].
    - cbn [sumn Nat.add]. rewrite (Hw 0%nat), (Hw 1%nat) by lia. change (0 <? 0)%nat with false. change (0 <? 1)%nat with true. cbn [andb]. destruct (Nat.ltb_spec 1 s); lra.
    - replace (k + 1)%nat with (S k) in * by lia. cbn [sumn] in IH |- *. rewrite <- IH by lia. rewrite (Hw k), (Hw (S k)) by lia. destruct (Nat.ltb_spec 0 k); [|lia]. destruct (Nat.ltb_spec k s); [|lia].
      destruct (Nat.ltb_spec 0 (S k)); [|lia]. cbn [andb]. destruct (Nat.ltb_spec (S k) s); lra. }
  rewrite <- (G s) by lia. rewrite Nat.ltb_irrefl. lra.
Qed.
Lemma grid_mod s x y : (x < s)%nat -> ((x + s * y) mod s = x /\ (x + s * y) / s = y)%nat.
Proof. intros H. rewrite (Nat.mul_comm s y), Nat.mod_add, Nat.div_add, Nat.mod_small, Nat.div_small by lia. lia. Qed.
Definition wx (s x : nat) : R := if (0 <? x)%nat && (x <? s)%nat then 5/10 else 1.
Lemma weight_correction_grid s x y : (1 <= s)%nat -> (x <= s)%nat -> (y <= s)%nat -> weight_correction s (x + (s + 1) * y) = wx s x * wx s y.
Proof.
  intros Hs Hx Hy. unfold weight_correction, wx. destruct (grid_mod (s + 1) x y ltac:(lia)) as [-> _]. replace (s + 1 - 1)%nat with s by lia. f_equal.
  replace ((s + 1 <=? x + (s + 1) * y)%nat) with (0 <? y)%nat.
  2:{ destruct (Nat.ltb_spec 0 y), (Nat.leb_spec (s + 1) (x + (s + 1) * y)); try reflexivity; nia. }
  replace ((x + (s + 1) * y <? (s + 1) * (s + 1) - (s + 1))%nat) with (y <? s)%nat; [reflexivity|].
  destruct (Nat.ltb_spec y s), (Nat.ltb_spec (x + (s + 1) * y) ((s + 1) * (s + 1) - (s + 1))); try reflexivity; nia.
Qed.
(** for every integrand F: the sum over sub-cells and corners with the corrected weights is the sum over the points of the cell;
    and all point numbers are in range *)
Theorem C34_weights_partition :
  forall (sub : nat) (F : nat -> R), (1 <= sub)%nat ->
    sumn (sub * sub) (fun d => sumn 4 (fun i => F (sub_index sub d i) * weight_correction sub (sub_index sub d i))) = sumn ((sub + 1) * (sub + 1)) F /\
    forall d i, (d < sub * sub)%nat -> (i < 4)%nat -> (sub_index sub d i < (sub + 1) * (sub + 1))%nat.
Proof.
  intros s F Hs.
  assert (IX : forall x y, (x < s)%nat -> (y < s)%nat ->
     sub_index s (x + s * y) 0 = (x + (s + 1) * y)%nat /\ sub_index s (x + s * y) 1 = ((x + 1) + (s + 1) * y)%nat /\
     sub_index s (x + s * y) 2 = (x + (s + 1) * (y + 1))%nat /\ sub_index s (x + s * y) 3 = ((x + 1) + (s + 1) * (y + 1))%nat).
  { intros x y Hx Hy. unfold sub_index. destruct (grid_mod s x y Hx) as [-> ->]. cbn [Nat.div Nat.divmod fst]. change (2 / 2)%nat with 1%nat. change (3 / 2)%nat with 1%nat. change (1 / 2)%nat with 0%nat. change (0 / 2)%nat with 0%nat. nia. }
  split.
  - rewrite sumn_grid, (sumn_grid (s + 1) (s + 1)).
    transitivity (sumn s (fun y => sumn (s + 1) (fun x => F (x + (s + 1) * y)%nat) * wx s y + sumn (s + 1) (fun x => F (x + (s + 1) * (y + 1))%nat) * wx s (y + 1))).
    + apply sumn_ext. intros y Hy. rewrite <- (trapezoid_1d s (wx s) (fun x => F (x + (s + 1) * y)%nat)) by (auto; intros; reflexivity).
      rewrite <- (trapezoid_1d s (wx s) (fun x => F (x + (s + 1) * (y + 1))%nat)) by (auto; intros; reflexivity).
      rewrite <- !sumn_scal_r, <- sumn_plus. apply sumn_ext. intros x Hx. destruct (IX x y Hx Hy) as (E0 & E1 & E2 & E3). cbn [sumn]. rewrite E0, E1, E2, E3.
      rewrite !weight_correction_grid by lia. ring.
    + exact (trapezoid_1d s (wx s) (fun y => sumn (s + 1) (fun x => F (x + (s + 1) * y)%nat)) Hs (fun _ _ => eq_refl)).
  - intros d i Hd Hi. assert (Hdm : d = (d mod s + s * (d / s))%nat) by (rewrite Nat.add_comm; apply Nat.div_mod; lia).
    assert (Hx : (d mod s < s)%nat) by (apply Nat.mod_upper_bound; lia). assert (Hy : (d / s < s)%nat) by (apply Nat.div_lt_upper_bound; lia).
    destruct (IX _ _ Hx Hy) as (E0 & E1 & E2 & E3). rewrite <- Hdm in *.
    assert (i = 0 \/ i = 1 \/ i = 2 \/ i = 3)%nat as [->|[->|[->| ->]]] by lia; [rewrite E0|rewrite E1|rewrite E2|rewrite E3]; nia.
Qed.
Print Assumptions C34_weights_partition.
(** values of the four corners of a sub-cell *)
Definition corner (sub : nat) (c : cut_cell) (d i : nat) : R := ct_c c (sub_index sub d i) + perturbation.
Definition regular_cell (sub : nat) (c : cut_cell) : Prop := forall d, (d < sub * sub)%nat ->
  all_nonzero (corner sub c d 0) (corner sub c d 1) (corner sub c d 2) (corner sub c d 3) /\ ~ saddle (corner sub c d 0) (corner sub c d 1) (corner sub c d 2) (corner sub c d 3).
(** the bubble area of a cell is between 0 and the area of the cell, and a completely positive cell contributes its area *)
Theorem C34_cell_area :
  forall (sub : nat) (c : cut_cell), (1 <= sub)%nat -> (forall q, (q < (sub + 1) * (sub + 1))%nat -> 0 <= ct_JxW c q) -> regular_cell sub c ->
    0 <= cut_integral sub c (fun _ => 1) <= sumn ((sub + 1) * (sub + 1)) (ct_JxW c) /\
    ((forall q, 0 < ct_c c q) -> forall g, cut_integral sub c g = sumn ((sub + 1) * (sub + 1)) (fun q => g q * ct_JxW c q)).
Proof.
  intros s c Hs HJ HR. destruct (C34_weights_partition s (ct_JxW c) Hs) as [HW HI].
  assert (WP : forall q, 0 <= weight_correction s q).
  { intros q. unfold weight_correction. destruct (_ && _), (_ && _); lra. }
  split; [split|].
  - unfold cut_integral. apply sumn_nonneg. intros d Hd. apply sumn_nonneg. intros i Hi. destruct (HR d Hd) as [N NS]. pose proof (C34_bounds _ _ _ _ N NS) as B.
    rewrite Rmult_1_l. apply Rmult_le_pos; [apply B|]. apply Rmult_le_pos; [apply HJ, HI; assumption|apply WP].
  - rewrite <- HW. unfold cut_integral. apply sumn_le. intros d Hd. apply sumn_le. intros i Hi. destruct (HR d Hd) as [N NS]. pose proof (C34_bounds _ _ _ _ N NS) as B.
    rewrite Rmult_1_l. rewrite <- (Rmult_1_l (ct_JxW c (sub_index s d i) * weight_correction s (sub_index s d i))) at 2. apply Rmult_le_compat_r; [|apply B].
    apply Rmult_le_pos; [apply HJ, HI; assumption|apply WP].
  - intros HP g. rewrite <- (proj1 (C34_weights_partition s (fun q => g q * ct_JxW c q) Hs)). unfold cut_integral. apply sumn_ext. intros d Hd. apply sumn_ext. intros i Hi.
    assert (P : forall i, 0 < ct_c c (sub_index s d i) + perturbation).
    { intros k. specialize (HP (sub_index s d k)). assert (0 < perturbation) by (unfold perturbation; apply Rinv_0_lt_compat, pow_lt; lra). lra. }
    assert (LA : forall a b e f, 0 < a -> 0 < b -> 0 < e -> 0 < f -> local_area a b e f = 1).
    { clear. intros a b e f Ha Hb He Hf. edges a b e f. unfold local_area, local_area_segments. rw_edges. run. reflexivity. }
    rewrite LA by apply P. ring.
Qed.
Print Assumptions C34_cell_area.

(** The contribution of a cell to area, center of mass and velocity.
    Specification: area of the positive part of sub-cell d (C34_exact_area: polygon of the linear interpolation along the edges), times the
    mean over the corners with the weights of the sub-cell. *)
Definition positive_fraction (sub : nat) (c : cut_cell) (d : nat) : R :=
  polygon_area (positive_polygon (corner sub c d 0) (corner sub c d 1) (corner sub c d 2) (corner sub c d 3)).
Definition sub_cell_integral (sub : nat) (c : cut_cell) (d : nat) (g : nat -> R) : R :=
  sumn 4 (fun i => let q := sub_index sub d i in g q * ct_JxW c q * weight_correction sub q).
Definition gauss_integral (b : bcell) (g : (nat -> R) -> (nat -> R) -> R) : R := suml (b_points b) (fun p => fst (fst p) * g (snd (fst p)) (snd p)).
Theorem C34_cell_totals :
  forall (sub : nat) (b : bcell),
    (* inside: the integral over the cell; outside: nothing *)
    (b_values b <> [] -> (forall s, In s (b_values b) -> 0 < s) ->
       t_area (cell_totals sub b) = gauss_integral b (fun _ _ => 1) /\ t_perimeter (cell_totals sub b) = 0 /\
       forall e, t_center (cell_totals sub b) e = gauss_integral b (fun x _ => x e) /\ t_velocity (cell_totals sub b) e = gauss_integral b (fun _ u => u e)) /\
    ((forall s, In s (b_values b) -> s < 0) -> cell_totals sub b = zero_totals) /\
    (* cut: some nodal value has not the sign of the first one; with the positive part of every sub-cell *)
    (forall s0 r s, b_values b = s0 :: r -> In s r -> ~ same s0 s -> regular_cell sub (b_cut b) ->
       let cut g := sumn (sub * sub) (fun d => positive_fraction sub (b_cut b) d * sub_cell_integral sub (b_cut b) d g) in
       t_area (cell_totals sub b) = cut (fun _ => 1) /\
       t_perimeter (cell_totals sub b) = sumn (sub * sub) (fun d => suml (sub_segments sub (b_cut b) d) (fun s => dist (fst s) (snd s))) /\
       forall e, t_center (cell_totals sub b) e = cut (fun i => ct_x (b_cut b) i e) /\ t_velocity (cell_totals sub b) e = cut (fun i => ct_u (b_cut b) i e)).
Proof.
  intros sub b.
  assert (U : forall s0 r, (forall s, In s r -> 0 < s * s0) -> interface_crosses_cell (s0 :: r) = false).
  { intros s0 r H. unfold interface_crosses_cell. apply not_true_is_false. intros E. apply existsb_exists in E. destruct E as (s & I & E).
    specialize (H s I). unfold Rleb in E. destruct (Rle_dec (s * s0) 0); [lra|discriminate]. }
  split; [|split].
  - intros Hn H. unfold cell_totals. destruct (b_values b) as [|s0 r] eqn:E; [contradiction|]. 
    assert (H0 : 0 < s0) by (apply H; left; auto). assert (Hr : forall s, In s r -> 0 < s) by (intros; apply H; right; auto). clear H Hn.
    rewrite U by (intros s I; apply Rmult_lt_0_compat; auto). cbv zeta. cbn [hd t_area t_perimeter t_center t_velocity]. unfold full_integral, gauss_integral.
    rewrite Rltb_true by auto. split; [|split; [auto|intros e; split]]; apply suml_ext; intros [[w x] u] _; cbn; ring.
  - intros H. unfold cell_totals. destruct (b_values b) as [|s0 r] eqn:E.
    + cbn [interface_crosses_cell hd]. unfold full_integral. rewrite Rltb_false by lra. reflexivity.
    + assert (H0 : s0 < 0) by (apply H; left; auto). assert (Hr : forall s, In s r -> s < 0) by (intros; apply H; right; auto). clear H.
      rewrite U by (intros s I; specialize (Hr s I); nra). cbn [hd]. unfold full_integral. rewrite Rltb_false by lra. reflexivity.
  - intros s0 r s E I NS HR. cbv zeta. unfold cell_totals. rewrite E.
    replace (interface_crosses_cell (s0 :: r)) with true.
    2: { symmetry. unfold interface_crosses_cell. apply existsb_exists. exists s. split; auto. apply Rleb_true. unfold same in NS.
         destruct (Rle_dec (s * s0) 0); auto. exfalso. apply NS. destruct (Rtotal_order s0 0) as [|[]]; [left|subst; nra|right]; split; try lra; nra. }
    cbv zeta. cbn [t_area t_perimeter t_center t_velocity].
    assert (C : forall g, cut_integral sub (b_cut b) g = sumn (sub * sub) (fun d => positive_fraction sub (b_cut b) d * sub_cell_integral sub (b_cut b) d g)).
    { intros g. unfold cut_integral. apply sumn_ext. intros d Hd. destruct (HR d Hd) as [A1 A2]. unfold positive_fraction. rewrite <- C34_exact_area by auto.
      unfold sub_cell_integral. rewrite <- sumn_scal. apply sumn_ext. intros i _. cbv zeta. unfold corner. ring. }
    split; [apply C|]. split; [reflexivity|]. intros e. split; apply C.
Qed.
Print Assumptions C34_cell_totals.
Example C34_cell_totals_nonvacuous : exists b, ~ same (hd 0 (b_values b)) (nth 1 (b_values b) 0) /\ regular_cell 1 (b_cut b) /\ ct_c (b_cut b) 0%nat < 0.
Proof.
  exists (MkCell [-1; 1] (MkCut (fun i => if Nat.eqb i 0 then -1 else 1) (fun _ => 1) (fun _ _ => 0) (fun _ _ => 0)) []). cbn [b_values b_cut hd nth].
  split; [unfold same; lra|]. split; [|cbn; lra]. intros d Hd. assert (d = 0%nat) by (cbn in Hd; lia). subst d. unfold corner, sub_index. cbn -[perturbation].
  assert (0 < perturbation < 1/10). { unfold perturbation. split; [apply Rinv_0_lt_compat, pow_lt; lra|]. replace (1/10) with (/ 10 ^ 1) by (cbn; field). apply Rinv_lt_contravar; [apply Rmult_lt_0_compat; apply pow_lt; lra|]. apply Rlt_pow; [lra|lia]. }
  unfold all_nonzero, saddle. lra.
Qed.

(** ** C35 *)
Lemma add_totals_assoc a b c : add_totals (add_totals a b) c = add_totals a (add_totals b c).
Proof. unfold add_totals. cbn. f_equal; [ring|ring| |]; apply functional_extensionality; intro; ring. Qed.
Lemma add_totals_comm a b : add_totals a b = add_totals b a.
Proof. unfold add_totals. cbn. f_equal; [ring|ring| |]; apply functional_extensionality; intro; ring. Qed.
Lemma add_totals_0 a : add_totals zero_totals a = a.
Proof. unfold add_totals, zero_totals. destruct a. cbn. f_equal; [ring|ring| |]; apply functional_extensionality; intro; ring. Qed.
Lemma fold_totals {A} (f : A -> totals) l : forall s, fold_left (fun s b => add_totals s (f b)) l s = add_totals s (fold_right (fun b t => add_totals (f b) t) zero_totals l).
Proof.
  induction l as [|a l IH]; intros s; cbn [fold_left fold_right]; [rewrite add_totals_comm, add_totals_0; reflexivity|].
  rewrite IH, add_totals_assoc. reflexivity.
Qed.
Lemma global_totals_fold l : global_totals l = fold_right add_totals zero_totals l.
Proof.
  unfold global_totals. induction l as [|t l IH]; [reflexivity|]. cbn [map fold_right mpi_sum]. rewrite <- IH. unfold add_totals. cbn. reflexivity.
Qed.
Lemma rank_totals_app sub a b : rank_totals sub (a ++ b) = add_totals (rank_totals sub a) (rank_totals sub b).
Proof. unfold rank_totals. rewrite fold_left_app, !(fold_totals (cell_totals sub) b). rewrite add_totals_0. reflexivity. Qed.
Lemma rank_totals_perm sub a b : Permutation a b -> rank_totals sub a = rank_totals sub b.
Proof.
  intros P. unfold rank_totals. rewrite !fold_totals. f_equal. induction P; cbn; [reflexivity|congruence| |congruence].
  rewrite <- !add_totals_assoc. f_equal. apply add_totals_comm.
Qed.
(** any distribution of the cells over any number of ranks gives the statistics of all cells on one rank *)
Theorem C35_partition_independent :
  forall (now : R) (sub : nat) (ranks : list (list bcell)) (all : list bcell),
    Permutation (concat ranks) all ->
    compute_bubble_statistics now sub ranks = compute_bubble_statistics now sub [all].
Proof.
  intros now sub ranks all P. unfold compute_bubble_statistics. f_equal. rewrite !global_totals_fold. cbn [map fold_right]. rewrite (add_totals_comm _ zero_totals), add_totals_0.
  rewrite <- (rank_totals_perm sub _ _ P). clear P all. induction ranks as [|r rs IH]; [reflexivity|]. cbn [map fold_right concat]. rewrite rank_totals_app, IH. reflexivity.
Qed.
Print Assumptions C35_partition_independent.
Lemma rank_totals_3d_app a b : rank_totals_3d (a ++ b) = add_totals (rank_totals_3d a) (rank_totals_3d b).
Proof.
  set (f := fun p => MkTotals (p3_H p * p3_JxW p) (5/10 * p3_delta p * p3_JxW p) (fun d => p3_x p d * p3_JxW p * p3_H p) (fun d => p3_u p d * p3_JxW p * p3_H p)).
  assert (E : forall l, rank_totals_3d l = fold_left (fun s b => add_totals s (f b)) l zero_totals) by reflexivity.
  rewrite !E, fold_left_app, !(fold_totals f b), add_totals_0. reflexivity.
Qed.
Theorem C35_partition_independent_3d :
  forall (now : R) (ranks : list (list point3)),
    compute_bubble_statistics_3d now ranks = compute_bubble_statistics_3d now [concat ranks].
Proof.
  intros now ranks. unfold compute_bubble_statistics_3d.
  assert (E : global_totals (map rank_totals_3d ranks) = global_totals (map rank_totals_3d [concat ranks])).
  { rewrite !global_totals_fold. cbn [map fold_right]. rewrite (add_totals_comm _ zero_totals), add_totals_0.
    induction ranks as [|r rs IH]; [reflexivity|]. cbn [map fold_right concat]. rewrite rank_totals_3d_app, IH. reflexivity. }
  rewrite E. reflexivity.
Qed.
Print Assumptions C35_partition_independent_3d.

(** the reported values: time, area, perimeter, circularity, mean velocity, center of mass *)
Definition over_cells (sub : nat) (ranks : list (list bcell)) (f : totals -> R) : R := suml (concat ranks) (fun b => f (cell_totals sub b)).
(** perimeter of the circle with this area; surface of the ball with this volume is characterised below *)
Definition circle_perimeter (a : R) : R := 2 * PI * sqrt (a / PI).
Lemma fold_cells sub cells : forall s, let t := fold_left (fun s b => add_totals s (cell_totals sub b)) cells s in
  t_area t = t_area s + suml cells (fun b => t_area (cell_totals sub b)) /\ t_perimeter t = t_perimeter s + suml cells (fun b => t_perimeter (cell_totals sub b)) /\
  forall d, t_center t d = t_center s d + suml cells (fun b => t_center (cell_totals sub b) d) /\ t_velocity t d = t_velocity s d + suml cells (fun b => t_velocity (cell_totals sub b) d).
Proof.
  induction cells as [|b cells IH]; intros s; cbn [fold_left suml]; cbv zeta; [repeat split; ring|].
  destruct (IH (add_totals s (cell_totals sub b))) as (A & P & CV). rewrite A, P. cbn [t_area t_perimeter add_totals]. split; [ring|]. split; [ring|].
  intros d. destruct (CV d) as [C V]. rewrite C, V. cbn [t_center t_velocity add_totals]. split; ring.
Qed.
Theorem C35_reported :
  forall (now : R) (sub : nat) (ranks : list (list bcell)),
    let total f := over_cells sub ranks f in
    0 < total t_area -> total t_perimeter <> 0 ->
    compute_bubble_statistics now sub ranks =
    [now; total t_area; total t_perimeter; circle_perimeter (total t_area) / total t_perimeter;
     total (fun t => t_velocity t 0%nat) / total t_area; total (fun t => t_velocity t 1%nat) / total t_area;
     total (fun t => t_center t 0%nat) / total t_area; total (fun t => t_center t 1%nat) / total t_area].
Proof.
  intros now sub ranks total Ha Hp.
  assert (E : global_totals (map (rank_totals sub) ranks) = rank_totals sub (concat ranks)).
  { rewrite global_totals_fold. clear. induction ranks as [|r rs IH]; [reflexivity|]. cbn [map fold_right concat]. rewrite rank_totals_app, IH. reflexivity. }
  unfold compute_bubble_statistics. rewrite E. unfold statistics, rank_totals.
  destruct (fold_cells sub (concat ranks) zero_totals) as (A & P & CV). cbn [t_area t_perimeter zero_totals] in A, P. rewrite Rplus_0_l in A, P. rewrite A, P.
  assert (C : forall d, t_center (fold_left (fun s b => add_totals s (cell_totals sub b)) (concat ranks) zero_totals) d = total (fun t => t_center t d)).
  { intros d. destruct (CV d) as [C _]. rewrite C. cbn. unfold total, over_cells. ring. }
  assert (V : forall d, t_velocity (fold_left (fun s b => add_totals s (cell_totals sub b)) (concat ranks) zero_totals) d = total (fun t => t_velocity t d)).
  { intros d. destruct (CV d) as [_ V]. rewrite V. cbn. unfold total, over_cells. ring. }
  rewrite !C, !V. fold (over_cells sub ranks t_area) (over_cells sub ranks t_perimeter).
  change (over_cells sub ranks t_area) with (total t_area). change (over_cells sub ranks t_perimeter) with (total t_perimeter).
  do 3 f_equal. f_equal. f_equal. unfold circle_perimeter. generalize (total t_area) Ha. clear. intros a Ha. pose proof PI_RGT_0 as HP.
  replace (a * PI) with ((a / PI) * (PI * PI)) by (field; lra). rewrite sqrt_mult_alt by (apply Rlt_le, Rdiv_lt_0_compat; lra).
  rewrite sqrt_square by lra. ring.
Qed.
Print Assumptions C35_reported.
(** the circularity of a circle is one *)
Theorem C35_circle : forall now r g, 0 < r -> t_area g = PI * (r * r) -> t_perimeter g = 2 * PI * r -> nth 3 (statistics now g) 0 = 1.
Proof.
  intros now r g Hr Ha Hp. cbn [statistics nth]. rewrite Ha, Hp. pose proof PI_RGT_0 as HP.
  replace (PI * (r * r) * PI) with ((PI * r) * (PI * r)) by ring. rewrite sqrt_square by (apply Rmult_le_pos; lra). field. lra.
Qed.
Print Assumptions C35_circle.
Definition over_points (ranks : list (list point3)) (f : point3 -> R) : R := suml (concat ranks) f.
Lemma fold_points pts : forall s, let t := fold_left (fun s p => MkTotals (t_area s + p3_H p * p3_JxW p) (t_perimeter s + 5/10 * p3_delta p * p3_JxW p)
      (fun d => t_center s d + p3_x p d * p3_JxW p * p3_H p) (fun d => t_velocity s d + p3_u p d * p3_JxW p * p3_H p)) pts s in
  t_area t = t_area s + suml pts (fun p => p3_H p * p3_JxW p) /\ t_perimeter t = t_perimeter s + suml pts (fun p => 5/10 * p3_delta p * p3_JxW p) /\
  forall d, t_center t d = t_center s d + suml pts (fun p => p3_x p d * p3_JxW p * p3_H p) /\ t_velocity t d = t_velocity s d + suml pts (fun p => p3_u p d * p3_JxW p * p3_H p).
Proof.
  induction pts as [|p pts IH]; intros s; cbn [fold_left suml]; cbv zeta; [repeat split; ring|].
  match goal with |- context [fold_left _ pts ?x] => destruct (IH x) as (A & P & CV) end. rewrite A, P. cbn [t_area t_perimeter]. split; [ring|]. split; [ring|].
  intros d. destruct (CV d) as [C V]. rewrite C, V. cbn [t_center t_velocity]. split; ring.
Qed.
(** dim = 3: integrals with the smoothed indicator; mean velocity, center of mass, and the sphericity of Wadell *)
Theorem C35_reported_3d :
  forall (now : R) (ranks : list (list point3)),
    let vol := over_points ranks (fun p => p3_JxW p * p3_H p) in
    let area := over_points ranks (fun p => p3_JxW p * (p3_delta p / 2)) in
    let mean f := over_points ranks (fun p => p3_JxW p * p3_H p * f p) / vol in
    exists sphericity, compute_bubble_statistics_3d now ranks =
      [now; vol; area; mean (fun p => p3_u p 0%nat); mean (fun p => p3_u p 1%nat); mean (fun p => p3_u p 2%nat);
       mean (fun p => p3_x p 0%nat); mean (fun p => p3_x p 1%nat); mean (fun p => p3_x p 2%nat); sphericity] /\
      (forall r, 0 < r -> vol = 4 / 3 * PI * (r * r * r) -> sphericity = (4 * PI * (r * r)) / area).
Proof.
  intros now ranks vol area mean.
  assert (E : global_totals (map rank_totals_3d ranks) = rank_totals_3d (concat ranks)).
  { rewrite global_totals_fold. clear. induction ranks as [|r rs IH]; [reflexivity|]. cbn [map fold_right concat]. rewrite rank_totals_3d_app, IH. reflexivity. }
  unfold compute_bubble_statistics_3d. rewrite E. unfold rank_totals_3d. destruct (fold_points (concat ranks) zero_totals) as (A & P & CV).
  set (t := fold_left _ (concat ranks) zero_totals) in *. clearbody t. cbn [t_area t_perimeter zero_totals t_center t_velocity] in *.
  assert (A' : t_area t = vol) by (rewrite A, Rplus_0_l; unfold vol, over_points; apply suml_ext; intros; ring).
  assert (P' : t_perimeter t = area) by (rewrite P, Rplus_0_l; unfold area, over_points; apply suml_ext; intros; lra).
  assert (V : forall d, t_velocity t d / vol = mean (fun p => p3_u p d)).
  { intros d. destruct (CV d) as [_ V]. unfold mean. rewrite V, Rplus_0_l. f_equal. unfold over_points. apply suml_ext. intros; ring. }
  assert (C : forall d, t_center t d / vol = mean (fun p => p3_x p d)).
  { intros d. destruct (CV d) as [C _]. unfold mean. rewrite C, Rplus_0_l. f_equal. unfold over_points. apply suml_ext. intros; ring. }
  cbv zeta. rewrite A', P', !V, !C. eexists. split; [reflexivity|]. intros r Hr Hv. rewrite Hv. f_equal. pose proof PI_RGT_0 as HP.
  replace (6 * (4 / 3 * PI * (r * r * r))) with (PI * ((2 * r) * (2 * r) * (2 * r))) by field.
  assert (H3 : 0 < 2 * r * (2 * r) * (2 * r)) by (repeat apply Rmult_lt_0_compat; lra).
  rewrite <- Rpower_mult_distr by lra. rewrite <- Rmult_assoc, <- Rpower_plus. replace (1/3 + 2/3) with 1 by field. rewrite Rpower_1 by lra.
  replace (2 * r * (2 * r) * (2 * r)) with (Rpower (2 * r) 3).
  2: { replace 3 with (INR 3) by (cbn; ring). rewrite Rpower_pow by lra. cbn. ring. }
  rewrite Rpower_mult. replace (3 * (2/3)) with (INR 2) by (cbn; field). rewrite Rpower_pow by lra. cbn. ring.
Qed.
Print Assumptions C35_reported_3d.

(** gather: rank 0 ends with the points of all ranks in rank order, the other ranks with none *)
Definition same_point (dim : nat) (p q : ipoint) : Prop := forall d e, (d < 2)%nat -> (e < dim)%nat -> p d e = q d e.
Lemma send_data_spec dim pts : exists data, send_data dim pts = Some data /\
  forall j p d e, nth_error pts j = Some p -> (d < 2)%nat -> (e < dim)%nat -> nth (j * 2 * dim + d * dim + e)%nat data 0 = p d e.
Proof.
  set (F := fun r => match nth_error pts (r / dim / 2) with Some p => p ((r / dim) mod 2) (r mod dim) | None => 0 end).
  assert (Dec : forall j d e, (d < 2)%nat -> (e < dim)%nat -> let r := (j * 2 * dim + d * dim + e)%nat in (r mod dim = e /\ r / dim = j * 2 + d /\ r / dim / 2 = j /\ (r / dim) mod 2 = d)%nat).
  { intros j d e Hd He r. assert (Er : r = ((j * 2 + d) * dim + e)%nat) by (unfold r; ring). destruct (mul_add_decode dim (j * 2 + d) e He) as [D1 D2].
    rewrite Er, D1, D2. destruct (mul_add_decode 2 j d Hd) as [D3 D4]. auto. }
  destruct (fills1_loop (2 * dim * length pts) F (length pts)
     (fun j => for_loop 2 (fun d => for_loop dim (fun e a => match nth_error pts j with Some p => upd a (j * 2 * dim + d * dim + e)%nat (p d e) | None => None end)))
     (fun j r => exists d, (d < 2)%nat /\ exists e, (e < dim)%nat /\ r = (j * 2 * dim + d * dim + e)%nat)) with (l := repeat 0 (2 * dim * length pts)) as (data & E & L & G & _).
  - intros j Hj. apply fills1_loop with (W := fun d r => exists e, (e < dim)%nat /\ r = (j * 2 * dim + d * dim + e)%nat). intros d Hd.
    apply fills1_loop with (W := fun e r => r = (j * 2 * dim + d * dim + e)%nat). intros e He.
    destruct (nth_error pts j) as [p|] eqn:Ep; [|apply nth_error_None in Ep; lia]. apply fills1_write; [nia|].
    unfold F. destruct (Dec j d e Hd He) as (D1 & _ & D3 & D4). rewrite D1, D3, D4, Ep. reflexivity.
  - apply repeat_length.
  - exists data. split; [exact E|]. intros j p d e Hp Hd He. apply nth_error_nth. rewrite G.
    + unfold F. destruct (Dec j d e Hd He) as (D1 & _ & D3 & D4). rewrite D1, D3, D4, Hp. reflexivity.
    + exists j. split; [apply nth_error_Some; congruence|]. exists d. split; [exact Hd|]. exists e. auto.
Qed.
Lemma Forall2_map_seq {B C} (P : B -> C -> Prop) (f : nat -> B) (l : list C) : (forall j y, nth_error l j = Some y -> P (f j) y) -> Forall2 P (map f (seq 0 (length l))) l.
Proof.
  revert f. induction l as [|y l IH]; intros f H; cbn; [constructor|]. constructor; [apply H; reflexivity|].
  rewrite <- seq_shift, map_map. apply IH. intros j z Hj. apply H. exact Hj.
Qed.
Theorem C35_gather :
  forall (dim : nat) (r0 : list ipoint) (rest : list (list ipoint)),
    exists all, gather dim (r0 :: rest) = Some (all :: map (fun _ => []) rest) /\ Forall2 (same_point dim) all (r0 ++ concat rest).
Proof.
  intros dim r0 rest. unfold gather.
  enough (H : forall acc acc', Forall2 (same_point dim) acc acc' -> exists all,
     fold_left (fun acc r => match acc, send_data dim r with Some a, Some data => Some (a ++ receive dim data (length r)) | _, _ => None end) rest (Some acc) = Some all /\
     Forall2 (same_point dim) all (acc' ++ concat rest)).
  { destruct (H r0 r0) as (all & -> & F); [|exists all; auto]. clear. induction r0; constructor; [intros d e _ _; reflexivity|assumption]. }
  induction rest as [|r rs IH]; intros acc acc' HF; cbn [fold_left concat].
  - exists acc. rewrite app_nil_r. auto.
  - destruct (send_data_spec dim r) as (data & -> & Hd).
    destruct (IH (acc ++ receive dim data (length r)) (acc' ++ r)) as (all & E & F).
    + apply Forall2_app; [exact HF|]. unfold receive. apply Forall2_map_seq. intros j p Hp d e Hdd He. apply Hd; assumption.
    + exists all. split; [exact E|]. rewrite app_assoc. exact F.
Qed.
Print Assumptions C35_gather.
Example C35_nonvacuous : exists p : ipoint, gather 2 [[p]; []; [p; p]] <> None /\ send_data 2 [fun d e => INR (2 * d + e)] = Some [0; 1; 2; 3].
Proof. exists (fun _ _ => 0). split; [discriminate|]. cbn. repeat f_equal; lra. Qed.

(** ** C60: extrapolation of the level set field to the new time *)
Theorem C60_extrapolation :
  forall (dt dt_old : R) (solution solution_old : nat -> R),
    let '(s_new, s_old, s_old_old) := init_time_advance dt dt_old solution solution_old in
    s_old = solution /\ s_old_old = solution_old /\
    (* linear in time: exact *)
    (0 < dt_old -> forall i a b t, solution i = a + b * t -> solution_old i = a + b * (t - dt_old) -> s_new i = a + b * (t + dt)) /\
    (* first step: constant *)
    (dt_old <= 0 -> s_new = solution).
Proof.
  intros dt dto s so. unfold init_time_advance. split; [reflexivity|]. split; [reflexivity|]. split.
  - intros H i a b t E1 E2. rewrite Rltb_true by exact H. rewrite E1, E2. field. lra.
  - intros H. rewrite Rltb_false by exact H. reflexivity.
Qed.
Print Assumptions C60_extrapolation.
(** but the extrapolated field can leave the range of the old fields *)
Theorem C60_not_bounded_refuted :
  exists dt dt_old s so i, 0 < dt /\ 0 < dt_old /\ -1 <= s i <= 1 /\ -1 <= so i <= 1 /\ 1 < fst (fst (init_time_advance dt dt_old s so)) i.
Proof.
  exists 1, 1, (fun _ => 9/10), (fun _ => 0), 0%nat. unfold init_time_advance. rewrite Rltb_true by lra. cbn. lra.
Qed.
Print Assumptions C60_not_bounded_refuted.
