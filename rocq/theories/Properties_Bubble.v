(** * Bubble statistics and adaptive time step: C33, C34, C35, C60 *)
From Coq Require Import Reals List Bool Lra Lia Arith Permutation FunctionalExtensionality.
From Verif Require Import SumR Model_Indices Properties_Indices Model_Bubble.
Import ListNotations.
Open Scope R_scope.

(** ** C33 *)
Section C33.
Variables (cfl coef_2 h v : R) (m : two_phase_material).
Hypotheses (Hcfl : 0 < cfl) (Hcoef : 0 < coef_2) (Hh : 0 < h) (Hv : 0 < v)
           (Hmu : 0 < viscosity m + viscosity_diff m) (Hsigma : 0 < surface_tension m).
(** positive, below the convective limit, and below the capillary-type limit in which the code has the viscosity of fluid 2 *)
Theorem C33_partial :
  let dt := adaptive_time_step cfl coef_2 m h v in
  0 < dt /\ dt < cfl * h / v /\
  dt < coef_2 * sqrt ((viscosity m + viscosity_diff m) / surface_tension m) * (h * sqrt h) /\
  (* and it is at least half of the smaller one of the two *)
  Rmin (cfl * h / v) (coef_2 * sqrt ((viscosity m + viscosity_diff m) / surface_tension m) * (h * sqrt h)) / 2 <= dt.
Proof.
  unfold adaptive_time_step. rewrite (Rplus_comm (viscosity_diff m)).
  set (a := cfl * h / v). set (b := coef_2 * sqrt ((viscosity m + viscosity_diff m) / surface_tension m) * (h * sqrt h)).
  assert (Ha : 0 < a) by (apply Rdiv_lt_0_compat; [apply Rmult_lt_0_compat|]; assumption).
  assert (Hb : 0 < b).
  { unfold b. apply Rmult_lt_0_compat; [apply Rmult_lt_0_compat; [assumption|apply sqrt_lt_R0, Rdiv_lt_0_compat; assumption]|].
    apply Rmult_lt_0_compat; [assumption|apply sqrt_lt_R0; assumption]. }
  clearbody a b. cbv zeta.
  assert (E : 1 / (1 / a + 1 / b) = a * b / (a + b)) by (field; repeat split; lra). rewrite E. clear E.
  assert (Hab : 0 < a * b) by (apply Rmult_lt_0_compat; assumption).
  split; [apply Rdiv_lt_0_compat; lra|]. split; [|split].
  - apply (Rmult_lt_reg_r (a + b)); [lra|]. unfold Rdiv. rewrite Rmult_assoc, Rinv_l, Rmult_1_r by lra. nra.
  - apply (Rmult_lt_reg_r (a + b)); [lra|]. unfold Rdiv. rewrite Rmult_assoc, Rinv_l, Rmult_1_r by lra. nra.
  - apply (Rmult_le_reg_r (a + b)); [lra|]. unfold Rdiv at 2. rewrite Rmult_assoc, Rinv_l, Rmult_1_r by lra.
    unfold Rmin. destruct (Rle_dec a b); nra.
Qed.
(** monotone: a faster bubble or a finer mesh never gives a larger step *)
Theorem C33_monotone : forall v' h', v <= v' -> 0 < h' <= h -> adaptive_time_step cfl coef_2 m h' v' <= adaptive_time_step cfl coef_2 m h v.
Proof.
  intros v' h' Hv' Hh'. unfold adaptive_time_step.
  set (s := sqrt ((viscosity_diff m + viscosity m) / surface_tension m)).
  assert (Hs : 0 < s) by (apply sqrt_lt_R0, Rdiv_lt_0_compat; lra).
  assert (A : 0 < cfl * h' / v' <= cfl * h / v).
  { split; [apply Rdiv_lt_0_compat; [apply Rmult_lt_0_compat|]; lra|]. unfold Rdiv. apply Rmult_le_compat.
    - apply Rlt_le, Rmult_lt_0_compat; lra.
    - apply Rlt_le, Rinv_0_lt_compat; lra.
    - apply Rmult_le_compat_l; lra.
    - apply Rinv_le_contravar; lra. }
  assert (B : 0 < coef_2 * s * (h' * sqrt h') <= coef_2 * s * (h * sqrt h)).
  { assert (0 < coef_2 * s) by (apply Rmult_lt_0_compat; assumption). assert (0 < sqrt h') by (apply sqrt_lt_R0; lra). assert (sqrt h' <= sqrt h) by (apply sqrt_le_1; lra).
    split; [apply Rmult_lt_0_compat; [assumption|]; apply Rmult_lt_0_compat; lra|]. apply Rmult_le_compat_l; [lra|]. apply Rmult_le_compat; lra. }
  destruct A as [A1 A2], B as [B1 B2]. set (a := cfl * h / v) in *. set (a' := cfl * h' / v') in *. set (b := coef_2 * s * (h * sqrt h)) in *. set (b' := coef_2 * s * (h' * sqrt h')) in *. clearbody a a' b b'.
  unfold Rdiv. rewrite !Rmult_1_l. apply Rinv_le_contravar.
  - assert (0 < / a) by (apply Rinv_0_lt_compat; lra). assert (0 < / b) by (apply Rinv_0_lt_compat; lra). lra.
  - apply Rplus_le_compat; apply Rinv_le_contravar; lra.
Qed.
End C33.
Print Assumptions C33_partial.
Print Assumptions C33_monotone.
(** the capillary limit with the density of fluid 2 is exceeded for heavy-viscosity fluids: e.g. density 1, viscosity 4 *)
Theorem C33_refuted_capillary_limit :
  exists (m : two_phase_material) (cfl coef_2 h v : R),
    0 < density m /\ 0 < density m + density_diff m /\ 0 < viscosity m /\ 0 < viscosity m + viscosity_diff m /\ 0 < surface_tension m /\
    0 < cfl /\ 0 < coef_2 /\ 0 < h /\ 0 < v /\
    coef_2 * sqrt ((density m + density_diff m) / surface_tension m) * (h * sqrt h) < adaptive_time_step cfl coef_2 m h v.
Proof.
  exists (MkMat 1 0 4 0 1), 1, 1, 1, (1/10). cbn. repeat (split; [lra|]). unfold adaptive_time_step. cbn.
  replace ((1 + 0) / 1) with 1 by field. replace ((0 + 4) / 1) with (2 * 2) by field. rewrite sqrt_square by lra. rewrite sqrt_1. lra.
Qed.
Print Assumptions C33_refuted_capillary_limit.
Example C33_nonvacuous : adaptive_time_step 1 1 (MkMat 1 0 4 0 1) 1 1 = 2 / 3.
Proof. unfold adaptive_time_step. cbn. replace ((0 + 4) / 1) with (2 * 2) by field. rewrite sqrt_square by lra. rewrite sqrt_1. field. Qed.

(** ** C34: specification *)
(** corners of the unit square, counter-clockwise, with their values *)
Definition boundary_walk (c0 c1 c2 c3 : R) : list (pt * R * (pt * R)) :=
  let k0 := ((0, 0), c0) in let k1 := ((1, 0), c1) in let k3 := ((1, 1), c3) in let k2 := ((0, 1), c2) in
  [(k0, k1); (k1, k3); (k3, k2); (k2, k0)].
(** the point of the edge from A (value a) to B (value b) where the linear interpolation vanishes *)
Definition zero_on (A B : pt) (a b : R) : pt := (fst A + a / (a - b) * (fst B - fst A), snd A + a / (a - b) * (snd B - snd A)).
(** polygon of the positive phase: positive corners and sign changes along the boundary *)
Definition positive_polygon (c0 c1 c2 c3 : R) : list pt :=
  flat_map (fun e : pt * R * (pt * R) => let '((A, a), (B, b)) := e in
     (if Rltb 0 a then [A] else []) ++ (if Rltb (a * b) 0 then [zero_on A B a b] else [])) (boundary_walk c0 c1 c2 c3).
(** area of a polygon: shoelace formula *)
Fixpoint shoelace_from (first : pt) (l : list pt) : R :=
  match l with
  | [] => 0
  | p :: r => let q := match r with [] => first | q :: _ => q end in (fst p * snd q - fst q * snd p) + shoelace_from first r
  end.
Definition polygon_area (l : list pt) : R := match l with [] => 0 | p :: _ => / 2 * shoelace_from p l end.
(** no zero values (the purpose of the perturbation), and no saddle (opposite corners with one sign, the others with the other) *)
Definition all_nonzero (c0 c1 c2 c3 : R) : Prop := c0 <> 0 /\ c1 <> 0 /\ c2 <> 0 /\ c3 <> 0.
Definition saddle (c0 c1 c2 c3 : R) : Prop := (0 < c0 /\ 0 < c3 /\ c1 < 0 /\ c2 < 0) \/ (c0 < 0 /\ c3 < 0 /\ 0 < c1 /\ 0 < c2).

(** ** C34: proofs *)
Lemma Rltb_true x y : x < y -> Rltb x y = true. Proof. intros. unfold Rltb. destruct (Rlt_dec x y); [reflexivity|lra]. Qed.
Lemma Rltb_false x y : y <= x -> Rltb x y = false. Proof. intros. unfold Rltb. destruct (Rlt_dec x y); [lra|reflexivity]. Qed.
Lemma Rleb_true x y : x <= y -> Rleb x y = true. Proof. intros. unfold Rleb. destruct (Rle_dec x y); [reflexivity|lra]. Qed.
Lemma Rleb_false x y : y < x -> Rleb x y = false. Proof. intros. unfold Rleb. destruct (Rle_dec x y); [lra|reflexivity]. Qed.

Definition opposite (a b : R) := (a < 0 /\ 0 < b) \/ (0 < a /\ b < 0).
Definition same (a b : R) := (a < 0 /\ b < 0) \/ (0 < a /\ 0 < b).
Lemma crossing_opposite a b : opposite a b ->
  exists r, crossing a b = r /\ a / (a - b) = r /\ b / (b - a) = 1 - r /\ 0 < r < 1 /\ Rltb (a * b) 0 = true /\ Rltb (b * a) 0 = true.
Proof.
  intros H. exists (a / (a - b)). assert (Hd : a - b <> 0) by (destruct H; lra).
  assert (Hp : a * b < 0) by (destruct H; nra).
  split; [unfold crossing; rewrite Rleb_true by lra; reflexivity|]. split; [reflexivity|]. split; [field; split; lra|].
  split; [|split; apply Rltb_true; lra].
  assert (E : a / (a - b) = (a * (a - b)) / ((a - b) * (a - b))) by (field; exact Hd).
  assert (0 < (a - b) * (a - b)) by nra. rewrite E. split; [apply Rdiv_lt_0_compat; nra|].
  apply (Rmult_lt_reg_r ((a - b) * (a - b))); [lra|]. unfold Rdiv. rewrite Rmult_assoc, Rinv_l, Rmult_1_r by lra. nra.
Qed.
Lemma crossing_same a b : same a b -> crossing a b = -1 /\ Rltb (a * b) 0 = false /\ Rltb (b * a) 0 = false.
Proof.
  intros H. assert (Hp : 0 < a * b) by (destruct H; nra). unfold crossing. rewrite Rleb_false by lra. rewrite !Rltb_false by lra. auto.
Qed.
Lemma rel_cases a b : a <> 0 -> b <> 0 -> opposite a b \/ same a b.
Proof. unfold opposite, same. intros. destruct (Rtotal_order a 0) as [|[]], (Rtotal_order b 0) as [|[]]; try lra; auto. Qed.

Ltac decide_bools := repeat match goal with
  | |- context [Rltb ?x ?y] => first [rewrite (Rltb_true x y) by lra | rewrite (Rltb_false x y) by lra]
  | |- context [Rleb ?x ?y] => first [rewrite (Rleb_true x y) by lra | rewrite (Rleb_false x y) by lra]
  end.
(** the area, once the edges are known *)
Ltac run := cbv zeta; decide_bools; cbn [andb fold_left subtract_cut fst snd app]; decide_bools.
(** all facts about one edge *)
Ltac edge a b r :=
  let H := fresh "E" in
  first [ assert (H : opposite a b) by (unfold opposite; lra);
          let Hc := fresh in let He := fresh in let Hf := fresh in let Hr := fresh in let P1 := fresh in let P2 := fresh in
          destruct (crossing_opposite a b H) as (r & Hc & He & Hf & Hr & P1 & P2)
        | assert (H : same a b) by (unfold same; lra);
          let Hc := fresh in let P1 := fresh in let P2 := fresh in
          destruct (crossing_same a b H) as (Hc & P1 & P2) ].
Ltac rw_edges := repeat match goal with
  | H : crossing _ _ = _ |- _ => rewrite H; clear H
  | H : Rltb (_ * _) 0 = _ |- _ => rewrite H; clear H
  | H : _ / (_ - _) = _ |- _ => rewrite H; clear H
  end.
Ltac signs c0 c1 c2 c3 := destruct (Rtotal_order c0 0) as [?|[?|?]]; [|exfalso; lra|]; (destruct (Rtotal_order c1 0) as [?|[?|?]]; [|exfalso; lra|]);
  (destruct (Rtotal_order c2 0) as [?|[?|?]]; [|exfalso; lra|]); (destruct (Rtotal_order c3 0) as [?|[?|?]]; [|exfalso; lra|]).
Ltac edges c0 c1 c2 c3 :=
  let rx0 := fresh "rx0" in let rx1 := fresh "rx1" in let ry0 := fresh "ry0" in let ry1 := fresh "ry1" in
  edge c0 c1 rx0; edge c2 c3 rx1; edge c0 c2 ry0; edge c1 c3 ry1.
(** exact polygon area *)
Theorem C34_exact_area :
  forall c0 c1 c2 c3 : R, all_nonzero c0 c1 c2 c3 -> ~ saddle c0 c1 c2 c3 ->
    local_area c0 c1 c2 c3 = polygon_area (positive_polygon c0 c1 c2 c3).
Proof.
  intros c0 c1 c2 c3 (N0 & N1 & N2 & N3) NS. unfold saddle in NS.
  signs c0 c1 c2 c3; try (exfalso; apply NS; lra); clear NS N0 N1 N2 N3; edges c0 c1 c2 c3;
  unfold local_area, local_area_segments, positive_polygon, boundary_walk, zero_on, origin; cbn [flat_map app fst snd];
  rw_edges; run; cbn [polygon_area shoelace_from fst snd]; lra.
Qed.
Print Assumptions C34_exact_area.
(** the fraction is in [0,1] and complementary *)
Theorem C34_bounds :
  forall c0 c1 c2 c3 : R, all_nonzero c0 c1 c2 c3 -> ~ saddle c0 c1 c2 c3 -> 0 <= local_area c0 c1 c2 c3 <= 1.
Proof.
  intros c0 c1 c2 c3 (N0 & N1 & N2 & N3) NS. unfold saddle in NS.
  signs c0 c1 c2 c3; try (exfalso; apply NS; lra); clear NS N0 N1 N2 N3; edges c0 c1 c2 c3;
  unfold local_area, local_area_segments; rw_edges; run; nra.
Qed.
Print Assumptions C34_bounds.
Theorem C34_complement :
  forall c0 c1 c2 c3 : R, all_nonzero c0 c1 c2 c3 -> ~ saddle c0 c1 c2 c3 ->
    local_area c0 c1 c2 c3 + local_area (- c0) (- c1) (- c2) (- c3) = 1.
Proof.
  intros c0 c1 c2 c3 (N0 & N1 & N2 & N3) NS. unfold saddle in NS.
  assert (Hc : forall a b, a <> 0 -> b <> 0 -> crossing (- a) (- b) = crossing a b).
  { intros a b Ha Hb. unfold crossing. replace (- a * - b) with (a * b) by ring. destruct (Rleb (a * b) 0) eqn:E; [|reflexivity].
    unfold Rleb in E. destruct (Rle_dec (a * b) 0); [|discriminate]. assert (a - b <> 0). { intros Hd. assert (a = b) by lra. subst b. assert (0 < a * a) by (apply Rsqr_pos_lt; assumption). lra. }
    field. lra. }
  unfold local_area, local_area_segments. rewrite !Hc by assumption.
  signs c0 c1 c2 c3; try (exfalso; apply NS; lra); clear Hc NS N0 N1 N2 N3; edges c0 c1 c2 c3; rw_edges; run; lra.
Qed.
Print Assumptions C34_complement.
(** violated for every saddle: the fraction is negative *)
Theorem C34_saddle_refuted :
  forall c0 c1 c2 c3 : R, saddle c0 c1 c2 c3 -> local_area c0 c1 c2 c3 < 0.
Proof.
  intros c0 c1 c2 c3 [H|H]; edges c0 c1 c2 c3; unfold local_area, local_area_segments; rw_edges; run; nra.
Qed.
Print Assumptions C34_saddle_refuted.
(** one straight segment per cut sub-cell, with both ends at zeros of the linear interpolation along two different edges *)
Definition zero_of_edge (qa qb : pt) (a b : R) (p : pt) : Prop := exists r, 0 < r < 1 /\ (1 - r) * a + r * b = 0 /\
  p = ((1 - r) * fst qa + r * fst qb, (1 - r) * snd qa + r * snd qb).
Theorem C34_segment :
  forall (q0 q1 q2 q3 : pt) (c0 c1 c2 c3 : R), all_nonzero c0 c1 c2 c3 -> ~ saddle c0 c1 c2 c3 ->
    let segs := snd (local_area_segments q0 q1 q2 q3 c0 c1 c2 c3) in
    let edges := [(q0, q1, c0, c1); (q2, q3, c2, c3); (q0, q2, c0, c2); (q1, q3, c1, c3)] in
    (segs = [] <-> same c0 c1 /\ same c0 c2 /\ same c0 c3) /\
    (segs <> [] -> exists s i j e f, segs = [s] /\ i <> j /\ nth_error edges i = Some e /\ nth_error edges j = Some f /\
       (let '(qa, qb, a, b) := e in zero_of_edge qa qb a b (fst s)) /\ (let '(qa, qb, a, b) := f in zero_of_edge qa qb a b (snd s))).
Proof.
  intros q0 q1 q2 q3 c0 c1 c2 c3 (N0 & N1 & N2 & N3) NS. unfold saddle in NS.
  assert (Z : forall qa qb a b r, opposite a b -> a / (a - b) = r -> 0 < r < 1 -> zero_of_edge qa qb a b (on_edge qa qb r)).
  { intros qa qb a b r Ho Hr Hb. exists r. split; [exact Hb|]. split; [rewrite <- Hr; field; destruct Ho; lra|]. unfold on_edge. f_equal; ring. }
  assert (Nil : forall (X : pt * pt), [X] <> []) by discriminate.
  signs c0 c1 c2 c3; try (exfalso; apply NS; lra); clear NS N0 N1 N2 N3; edges c0 c1 c2 c3;
  unfold local_area_segments; repeat match goal with H : crossing _ _ = _ |- _ => rewrite H; clear H end; run;
  (split; [split; [try (intros; exfalso; discriminate); intros _; unfold same; lra | intros HS; first [reflexivity | exfalso; unfold same in HS; lra]] | try (intros HH; exfalso; apply HH; reflexivity); intros _ ]);
  match goal with
  | |- exists s i j e f, [(on_edge ?a ?b ?r, on_edge ?c ?d ?t)] = [s] /\ _ =>
      exists (on_edge a b r, on_edge c d t);
      match goal with Ha : ?x / (?x - ?y) = r, Hb : ?u / (?u - ?w) = t |- _ =>
        let pick x y := match constr:((x, y)) with (c0, c1) => constr:(0%nat) | (c2, c3) => constr:(1%nat) | (c0, c2) => constr:(2%nat) | (c1, c3) => constr:(3%nat) end in
        let i := pick x y in let j := pick u w in exists i, j, (a, b, x, y), (c, d, u, w) end
  end; (split; [reflexivity|]; split; [discriminate|]; split; [reflexivity|]; split; [reflexivity|]; split; cbn [fst snd]; apply Z; assumption).
Qed.
Print Assumptions C34_segment.
(** the interface length of a cell: for each of its sub-cells the Euclidean distance of the two zeros on the edges *)
Definition corner (sub d i : nat) : nat := ((d mod sub + i mod 2) + (d / sub + i / 2) * (sub + 1))%nat.
Theorem C34_perimeter : forall (sub : nat) (c : cut_cell), (1 <= sub)%nat ->
  let v d i := ct_c c (corner sub d i) + perturbation in
  let q d i : pt := (ct_x c (corner sub d i) 0%nat, ct_x c (corner sub d i) 1%nat) in
  (forall d, (d < sub * sub)%nat -> all_nonzero (v d 0%nat) (v d 1%nat) (v d 2%nat) (v d 3%nat) /\ ~ saddle (v d 0%nat) (v d 1%nat) (v d 2%nat) (v d 3%nat)) ->
  exists len, cut_perimeter sub c = sumn (sub * sub) len /\ forall d, (d < sub * sub)%nat ->
    let edges := [(q d 0%nat, q d 1%nat, v d 0%nat, v d 1%nat); (q d 2%nat, q d 3%nat, v d 2%nat, v d 3%nat);
                  (q d 0%nat, q d 2%nat, v d 0%nat, v d 2%nat); (q d 1%nat, q d 3%nat, v d 1%nat, v d 3%nat)] in
    (same (v d 0%nat) (v d 1%nat) /\ same (v d 0%nat) (v d 2%nat) /\ same (v d 0%nat) (v d 3%nat) /\ len d = 0) \/
    exists a b i j e f, i <> j /\ nth_error edges i = Some e /\ nth_error edges j = Some f /\
      (let '(qa, qb, x, y) := e in zero_of_edge qa qb x y a) /\ (let '(qa, qb, x, y) := f in zero_of_edge qa qb x y b) /\
      0 <= len d /\ len d * len d = (fst a - fst b) * (fst a - fst b) + (snd a - snd b) * (snd a - snd b).
Proof.
  intros sub c HS v q H.
  assert (IX : forall d i, (i < 4)%nat -> sub_index sub d i = corner sub d i).
  { intros d i Hi. unfold sub_index, corner. generalize (d mod sub)%nat, (d / sub)%nat. intros a b.
    destruct i as [|[|[|[|i]]]]; [| | | |lia]; cbn [Nat.div Nat.modulo Nat.divmod fst snd Nat.sub]; nia. }
  exists (fun d => suml (sub_segments sub c d) (fun s => dist (fst s) (snd s))). split; [reflexivity|].
  intros d Hd edges. destruct (H d Hd) as [HN NS].
  assert (E : sub_segments sub c d = snd (local_area_segments (q d 0%nat) (q d 1%nat) (q d 2%nat) (q d 3%nat) (v d 0%nat) (v d 1%nat) (v d 2%nat) (v d 3%nat))).
  { unfold sub_segments. cbv zeta. rewrite !IX by lia. reflexivity. }
  destruct (C34_segment (q d 0%nat) (q d 1%nat) (q d 2%nat) (q d 3%nat) (v d 0%nat) (v d 1%nat) (v d 2%nat) (v d 3%nat) HN NS) as [A B].
  rewrite <- E in A, B. fold edges in B.
  destruct (sub_segments sub c d) as [|s0 segs].
  - left. destruct (proj1 A eq_refl) as (S1 & S2 & S3). split; [exact S1|]. split; [exact S2|]. split; [exact S3|]. reflexivity.
  - right. destruct (B ltac:(discriminate)) as (s & i & j & e & f & Es & Hij & He & Hf & Za & Zb).
    exists (fst s), (snd s), i, j, e, f. split; [exact Hij|]. split; [exact He|]. split; [exact Hf|]. split; [exact Za|]. split; [exact Zb|].
    rewrite Es. cbn [suml]. rewrite Rplus_0_r. unfold dist. split; [apply sqrt_pos|]. apply sqrt_sqrt.
    apply Rplus_le_le_0_compat; apply Rle_0_sqr.
Qed.
Print Assumptions C34_perimeter.
Example C34_perimeter_nonvacuous : let v i := (if Nat.eqb i 0 then -1 else 1) + perturbation in
  all_nonzero (v 0%nat) (v 1%nat) (v 2%nat) (v 3%nat) /\ ~ saddle (v 0%nat) (v 1%nat) (v 2%nat) (v 3%nat).
Proof.
  intros v. assert (P : 0 < perturbation < 1).
  { unfold perturbation. split; [apply Rinv_0_lt_compat, pow_lt; lra|]. rewrite <- Rinv_1. apply Rinv_lt_contravar; [|apply Rlt_pow_R1; [lra|lia]]. rewrite Rmult_1_l. apply pow_lt. lra. }
  unfold v. cbn [Nat.eqb]. unfold all_nonzero, saddle. lra.
Qed.
Example C34_nonvacuous : all_nonzero (-1) 1 1 1 /\ ~ saddle (-1) 1 1 1 /\ local_area (-1) 1 1 1 = 7/8 /\ saddle 1 (-1) (-1) 1 /\ local_area 1 (-1) (-1) 1 = -1.
Proof.
  split; [unfold all_nonzero; lra|]. split; [unfold saddle; lra|]. split; [|split; [unfold saddle; lra|]].
  - unfold local_area, local_area_segments, crossing. decide_bools. replace (-1 / (-1 - 1)) with (1/2) by field. run. lra.
  - unfold local_area, local_area_segments, crossing. decide_bools.
    replace (1 / (1 - -1)) with (1/2) by field. replace (-1 / (-1 - 1)) with (1/2) by field. run. lra.
Qed.
