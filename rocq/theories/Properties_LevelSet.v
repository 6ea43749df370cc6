(** * Level set functions: C37, C38, C39, C40 *)
From Coq Require Import Reals List Bool Ratan Lra Lia Permutation.
From Coquelicot Require Import Coquelicot.
From Verif Require Import SumR Model_Bubble Properties_Bubble Model_LevelSet.
Import ListNotations.
Open Scope R_scope.

(** ** C37 *)
Lemma delta_on_left x : -2 <= x <= -1 -> discrete_delta x = 1/8 * (5 + 2 * x - sqrt (-7 - 12 * x - 4 * x * x)).
Proof.
  intros H. unfold discrete_delta, delta_nonpos. rewrite (Rltb_false 0 x), (Rltb_false x (-2)) by lra.
  destruct (Rlt_dec x (-1)) as [H1|H1]; [rewrite Rltb_true by lra; reflexivity|]. rewrite Rltb_false by lra. assert (x = -1) by lra. subst x.
  replace (-7 - 12 * -1 - 4 * -1 * -1) with 1 by ring. replace (1 - 4 * -1 - 4 * -1 * -1) with 1 by ring. rewrite sqrt_1. lra.
Qed.
Lemma delta_on_right x : -1 <= x <= 0 -> discrete_delta x = 1/8 * (3 + 2 * x + sqrt (1 - 4 * x - 4 * x * x)).
Proof. intros H. unfold discrete_delta, delta_nonpos. rewrite (Rltb_false 0 x), (Rltb_false x (-2)), Rltb_false by lra. reflexivity. Qed.
(** even and zero outside of [-2, 2] *)
Theorem C37_even : forall x, discrete_delta (- x) = discrete_delta x.
Proof.
  intros x. unfold discrete_delta. destruct (Rtotal_order x 0) as [H|[->|H]].
  - rewrite (Rltb_true 0 (- x)), (Rltb_false 0 x), Ropp_involutive by lra. reflexivity.
  - rewrite !Ropp_0. destruct (Rltb 0 0); reflexivity.
  - rewrite (Rltb_false 0 (- x)), (Rltb_true 0 x) by lra. reflexivity.
Qed.
Theorem C37_support : forall x, 2 <= Rabs x -> discrete_delta x = 0.
Proof.
  assert (G : forall x, x <= -2 -> discrete_delta x = 0).
  { intros x H. destruct (Rlt_dec x (-2)) as [H1|H1].
    - unfold discrete_delta, delta_nonpos. rewrite (Rltb_false 0 x), Rltb_true by lra. reflexivity.
    - assert (x = -2) by lra. subst x. rewrite delta_on_left by lra. replace (-7 - 12 * -2 - 4 * -2 * -2) with 1 by ring. rewrite sqrt_1. lra. }
  intros x H. unfold Rabs in H. destruct (Rcase_abs x); [apply G; lra|]. rewrite <- C37_even. apply G. lra.
Qed.
Theorem C37_nonnegative : forall x, 0 <= discrete_delta x <= 1/2.
Proof.
  assert (G : forall x, x <= 0 -> 0 <= discrete_delta x <= 1/2).
  { intros x H. destruct (Rle_dec x (-2)) as [H2|H2].
    - rewrite C37_support by (unfold Rabs; destruct (Rcase_abs x); lra). lra.
    - destruct (Rle_dec x (-1)) as [H1|H1].
      + rewrite delta_on_left by lra.
        assert (S : sqrt (-7 - 12 * x - 4 * x * x) <= 5 + 2 * x).
        { rewrite <- (sqrt_square (5 + 2 * x)) by lra. apply sqrt_le_1_alt. nra. }
        pose proof (sqrt_pos (-7 - 12 * x - 4 * x * x)). lra.
      + rewrite delta_on_right by lra.
        assert (S : sqrt (1 - 4 * x - 4 * x * x) <= 1 - 2 * x).
        { rewrite <- (sqrt_square (1 - 2 * x)) by lra. apply sqrt_le_1_alt. nra. }
        pose proof (sqrt_pos (1 - 4 * x - 4 * x * x)). lra. }
  intros x. destruct (Rle_dec x 0); [apply G; assumption|]. rewrite <- C37_even. apply G. lra.
Qed.
(** values at four consecutive grid points covering the support *)
Lemma delta_four x : -2 <= x <= -1 -> exists s, 0 <= s /\ s * s = -7 - 12 * x - 4 * x * x /\
  discrete_delta x = 1/8 * (5 + 2 * x - s) /\ discrete_delta (x + 1) = 1/8 * (5 + 2 * x + s) /\
  discrete_delta (x + 2) = 1/8 * (-1 - 2 * x + s) /\ discrete_delta (x + 3) = 1/8 * (-1 - 2 * x - s).
Proof.
  intros H. exists (sqrt (-7 - 12 * x - 4 * x * x)). split; [apply sqrt_pos|]. split; [apply sqrt_sqrt; nra|].
  split; [apply delta_on_left; lra|]. split; [|split].
  - rewrite delta_on_right by lra. replace (1 - 4 * (x + 1) - 4 * (x + 1) * (x + 1)) with (-7 - 12 * x - 4 * x * x) by ring. lra.
  - rewrite <- C37_even, delta_on_right by lra. replace (1 - 4 * - (x + 2) - 4 * - (x + 2) * - (x + 2)) with (-7 - 12 * x - 4 * x * x) by ring. lra.
  - rewrite <- C37_even, delta_on_left by lra. replace (-7 - 12 * - (x + 3) - 4 * - (x + 3) * - (x + 3)) with (-7 - 12 * x - 4 * x * x) by ring. lra.
Qed.
(** Peskin's conditions for an arbitrary real offset r of the grid: the four grid points in the support are r + k, ..., r + k + 3
    for an integer k, all other grid points have value 0 *)
Theorem C37_moments :
  forall r : R, exists k : Z,
    let d j := discrete_delta (r + IZR (k + j)) in let p j := r + IZR (k + j) in
    (forall j, (j < 0 \/ 3 < j)%Z -> d j = 0) /\
    d 0%Z + d 1%Z + d 2%Z + d 3%Z = 1 /\
    d 0%Z + d 2%Z = 1/2 /\ d 1%Z + d 3%Z = 1/2 /\
    p 0%Z * d 0%Z + p 1%Z * d 1%Z + p 2%Z * d 2%Z + p 3%Z * d 3%Z = 0 /\
    d 0%Z * d 0%Z + d 1%Z * d 1%Z + d 2%Z * d 2%Z + d 3%Z * d 3%Z = 3/8.
Proof.
  intros r. exists (- up (r + 1))%Z. destruct (archimed (r + 1)) as [A1 A2]. set (k := up (r + 1)) in *. clearbody k.
  assert (Hx : -2 <= r + IZR (- k) <= -1) by (rewrite opp_IZR; lra). set (x := r + IZR (- k)) in *.
  assert (E : forall j, r + IZR (- k + j) = x + IZR j) by (intros j; unfold x; rewrite plus_IZR; ring). cbv beta zeta. rewrite !(E 0%Z), !(E 1%Z), !(E 2%Z), !(E 3%Z).
  destruct (delta_four x Hx) as (s & Hs & Hss & D0 & D1 & D2 & D3). 
  replace (x + 0) with x by ring. rewrite D0, D1, D2, D3. split.
  - intros j Hj. rewrite E. apply C37_support. assert (IZR j <= -1 \/ 4 <= IZR j) as [Hz|Hz].
    { destruct Hj; [left; apply IZR_le; lia|right; apply IZR_le; lia]. }
    + unfold Rabs. destruct (Rcase_abs (x + IZR j)); lra.
    + unfold Rabs. destruct (Rcase_abs (x + IZR j)); lra.
  - repeat split; nra.
Qed.
Local Definition pl (x : R) : R := 1/8 * (5 + 2 * x - sqrt (-7 - 12 * x - 4 * x * x)).
Local Definition pr (x : R) : R := 1/8 * (3 + 2 * x + sqrt (1 - 4 * x - 4 * x * x)).
(** continuity, piece by piece *)
Lemma glue_continuous (f g h : R -> R) a b c : b < a < c -> (forall x, b < x <= a -> f x = g x) -> (forall x, a <= x < c -> f x = h x) ->
  continuity_pt g a -> continuity_pt h a -> continuity_pt f a.
Proof.
  intros Hbc Hl Hr Hg Hh eps Heps. destruct (Hg eps Heps) as (d1 & P1 & H1). destruct (Hh eps Heps) as (d2 & P2 & H2).
  exists (Rmin (Rmin d1 d2) (Rmin (a - b) (c - a))). split; [apply Rmin_pos; apply Rmin_pos; lra|].
  intros x [Dx Hx]. cbn in *. unfold R_dist in *.
  pose proof (Rmin_l (Rmin d1 d2) (Rmin (a - b) (c - a))). pose proof (Rmin_r (Rmin d1 d2) (Rmin (a - b) (c - a))).
  pose proof (Rmin_l d1 d2). pose proof (Rmin_r d1 d2). pose proof (Rmin_l (a - b) (c - a)). pose proof (Rmin_r (a - b) (c - a)).
  assert (Hx' : b < x < c) by (unfold Rabs in Hx; destruct (Rcase_abs (x - a)); lra).
  destruct (Rle_dec x a) as [L|L].
  - rewrite (Hl x), (Hl a) by lra. apply H1. split; [exact Dx|lra].
  - rewrite (Hr x), (Hr a) by lra. apply H2. split; [exact Dx|lra].
Qed.
Lemma piece_left_continuous x : -21/10 <= x <= -9/10 -> continuity_pt pl x.
Proof.
  intros H. apply derivable_continuous_pt. apply ex_derive_Reals_0. unfold pl, pr. auto_derive. assert (0 < -7 - 12 * x - 4 * x * x) by nra. lra.
Qed.
Lemma piece_right_continuous x : -11/10 <= x <= 1/10 -> continuity_pt pr x.
Proof.
  intros H. apply derivable_continuous_pt. apply ex_derive_Reals_0. unfold pl, pr. auto_derive. assert (0 < 1 - 4 * x - 4 * x * x) by nra. lra.
Qed.
Theorem C37_continuous : forall x, continuity_pt discrete_delta x.
Proof.
  assert (C0 : forall x, continuity_pt (fun _ => 0) x) by (intros; apply continuity_pt_const; intros ? ?; reflexivity).
  assert (Z : forall x, x <= -2 -> discrete_delta x = 0) by (intros x Hx; apply C37_support; unfold Rabs; destruct (Rcase_abs x); lra).
  assert (G : forall x, x < 0 -> continuity_pt discrete_delta x).
  { intros x Hx. destruct (Rtotal_order x (-2)) as [H|[->|H]].
    - apply (glue_continuous _ (fun _ => 0) (fun _ => 0) x (x - 1) (-2)); try apply C0; try lra; intros; apply Z; lra.
    - apply (glue_continuous _ (fun _ => 0) pl (-2) (-3) (-1)); [lra|intros; apply Z; lra|intros; apply delta_on_left; lra|apply C0|apply piece_left_continuous; lra].
    - destruct (Rtotal_order x (-1)) as [H1|[->|H1]].
      + apply (glue_continuous _ pl pl x (-2) (-1)); [lra|intros; apply delta_on_left; lra|intros; apply delta_on_left; lra|apply piece_left_continuous; lra|apply piece_left_continuous; lra].
      + apply (glue_continuous _ pl pr (-1) (-2) 0); [lra|intros; apply delta_on_left; lra|intros; apply delta_on_right; lra|apply piece_left_continuous; lra|apply piece_right_continuous; lra].
      + apply (glue_continuous _ pr pr x (-1) 0); [lra|intros; apply delta_on_right; lra|intros; apply delta_on_right; lra|apply piece_right_continuous; lra|apply piece_right_continuous; lra]. }
  assert (O : forall x, continuity_pt Ropp x) by (intros x; apply derivable_continuous_pt, derivable_pt_opp, derivable_pt_id).
  assert (M : forall (f : R -> R) x, continuity_pt f (- x) -> continuity_pt (fun y => f (- y)) x).
  { intros f x Hf. apply (continuity_pt_comp Ropp f x); [apply O|exact Hf]. }
  intros x. destruct (Rtotal_order x 0) as [H|[->|H]]; [apply G; assumption| |].
  - apply (glue_continuous _ pr (fun y => pr (- y)) 0 (-1) 1); [lra| | | |].
    + intros; apply delta_on_right; lra.
    + intros y Hy. rewrite <- C37_even. apply delta_on_right; lra.
    + apply piece_right_continuous; lra.
    + apply M. apply piece_right_continuous; lra.
  - apply (continuity_pt_ext (fun y => discrete_delta (- y))); [intros; apply C37_even|]. apply M. apply G. lra.
Qed.
Print Assumptions C37_continuous.
Print Assumptions C37_even.
Print Assumptions C37_support.
Print Assumptions C37_nonnegative.
Print Assumptions C37_moments.

(** ** C38 *)
Lemma sqrt2_pos : 0 < sqrt 2. Proof. apply sqrt_lt_R0; lra. Qed.
Lemma sqrt2_sq : sqrt 2 * sqrt 2 = 2. Proof. apply sqrt_sqrt; lra. Qed.
Lemma is_derive_asin x : -1 < x < 1 -> is_derive asin x (/ sqrt (1 - x * x)).
Proof.
  intros H. apply is_derive_Reals. pose proof (derive_pt_asin x H) as D. apply derive_pt_eq in D. replace (1 / sqrt (1 - x²)) with (/ sqrt (1 - x * x)) in D by (unfold Rsqr, Rdiv; ring). exact D.
Qed.
Lemma asin_arg_derive c x : -1 < sqrt 2 * (x + c) < 1 -> is_derive (fun x => asin (sqrt 2 * (x + c))) x (sqrt 2 * / sqrt (1 - (sqrt 2 * (x + c)) * (sqrt 2 * (x + c)))).
Proof.
  intros H. evar_last. apply (is_derive_comp asin (fun x => sqrt 2 * (x + c))).
  - apply is_derive_asin. exact H.
  - auto_derive; [exact I|reflexivity].
  - unfold scal; cbn; unfold mult; cbn. ring.
Qed.
(** pieces on a neighbourhood of their closed interval *)
Lemma left_derive x : -21/10 <= x <= -9/10 -> is_derive heaviside_left x (1/8 * (5 + 2 * x - sqrt (-7 - 12 * x - 4 * x * x))).
Proof.
  intros Hx. set (s := sqrt (-7 - 12 * x - 4 * x * x)).
  assert (P : 0 < -7 - 12 * x - 4 * x * x) by nra. assert (Hs : 0 < s) by (apply sqrt_lt_R0; exact P).
  assert (Hss : s * s = -7 - 12 * x - 4 * x * x) by (apply sqrt_sqrt; lra).
  pose proof sqrt2_pos. pose proof sqrt2_sq.
  assert (E2 : 1 - (sqrt 2 * (x + 3/2)) * (sqrt 2 * (x + 3/2)) = (s / sqrt 2) * (s / sqrt 2)).
  { replace ((s / sqrt 2) * (s / sqrt 2)) with (s * s / (sqrt 2 * sqrt 2)) by (field; lra). rewrite Hss, H0.
    replace (sqrt 2 * (x + 3/2) * (sqrt 2 * (x + 3/2))) with (sqrt 2 * sqrt 2 * ((x + 3/2) * (x + 3/2))) by ring. rewrite H0. field. }
  assert (B : -1 < sqrt 2 * (x + 3/2) < 1).
  { assert (0 < 1 - (sqrt 2 * (x + 3/2)) * (sqrt 2 * (x + 3/2))). { rewrite E2. assert (0 < s / sqrt 2) by (apply Rdiv_lt_0_compat; assumption). nra. } nra. }
  assert (DA := asin_arg_derive (3/2) x B). rewrite E2 in DA. rewrite sqrt_square in DA by (apply Rlt_le, Rdiv_lt_0_compat; assumption).
  evar_last. unfold heaviside_left.
  apply (is_derive_minus (fun x => 1/8 * (5 * x + x * x) + 1/32 * (-3 - 2 * x) * sqrt (-7 - 12 * x - 4 * x * x) - 1/16 * asin (sqrt 2 * (x + 3/2)) + 23/32) (fun _ => PI / 64)); [|apply is_derive_const].
  apply (is_derive_plus (fun x => 1/8 * (5 * x + x * x) + 1/32 * (-3 - 2 * x) * sqrt (-7 - 12 * x - 4 * x * x) - 1/16 * asin (sqrt 2 * (x + 3/2))) (fun _ => 23/32)); [|apply is_derive_const].
  apply (is_derive_minus (fun x => 1/8 * (5 * x + x * x) + 1/32 * (-3 - 2 * x) * sqrt (-7 - 12 * x - 4 * x * x)) (fun x => 1/16 * asin (sqrt 2 * (x + 3/2)))).
  - auto_derive; [unfold Rminus in P; lra|reflexivity].
  - apply (is_derive_scal (fun x => asin (sqrt 2 * (x + 3/2))) x (1/16)). exact DA.
  - unfold minus, plus, opp, scal, zero; cbn; unfold mult; cbn.
    replace (sqrt (-7 + - (12 * x) + - (4 * x * x))) with s by (unfold s; f_equal; ring).
    replace (sqrt 2 * / (s / sqrt 2)) with (2 / s) by (rewrite <- H0 at 1; field; split; lra).
    apply (Rmult_eq_reg_r s); [|lra].
    transitivity (1/8 * (5 + 2 * x) * s - 1/16 * (s * s) + 1/64 * ((-3 - 2 * x) * (-12 - 8 * x)) - 1/8); [field; lra|].
    replace (1/8 * (5 + 2 * x - s) * s) with (1/8 * (5 + 2 * x) * s - 1/8 * (s * s)) by ring. rewrite Hss. field.
Qed.
Lemma right_derive x : -11/10 <= x <= 1/10 -> is_derive heaviside_right x (1/8 * (3 + 2 * x + sqrt (1 - 4 * x - 4 * x * x))).
Proof.
  intros Hx. set (s := sqrt (1 - 4 * x - 4 * x * x)).
  assert (P : 0 < 1 - 4 * x - 4 * x * x) by nra. assert (Hs : 0 < s) by (apply sqrt_lt_R0; exact P).
  assert (Hss : s * s = 1 - 4 * x - 4 * x * x) by (apply sqrt_sqrt; lra).
  pose proof sqrt2_pos. pose proof sqrt2_sq.
  assert (E2 : 1 - (sqrt 2 * (x + 1/2)) * (sqrt 2 * (x + 1/2)) = (s / sqrt 2) * (s / sqrt 2)).
  { replace ((s / sqrt 2) * (s / sqrt 2)) with (s * s / (sqrt 2 * sqrt 2)) by (field; lra). rewrite Hss, H0.
    replace (sqrt 2 * (x + 1/2) * (sqrt 2 * (x + 1/2))) with (sqrt 2 * sqrt 2 * ((x + 1/2) * (x + 1/2))) by ring. rewrite H0. field. }
  assert (B : -1 < sqrt 2 * (x + 1/2) < 1).
  { assert (0 < 1 - (sqrt 2 * (x + 1/2)) * (sqrt 2 * (x + 1/2))). { rewrite E2. assert (0 < s / sqrt 2) by (apply Rdiv_lt_0_compat; assumption). nra. } nra. }
  assert (DA := asin_arg_derive (1/2) x B). rewrite E2 in DA. rewrite sqrt_square in DA by (apply Rlt_le, Rdiv_lt_0_compat; assumption).
  evar_last. unfold heaviside_right.
  apply (is_derive_minus (fun x => 1/8 * (3 * x + x * x) - 1/32 * (-1 - 2 * x) * sqrt (1 - 4 * x - 4 * x * x) + 1/16 * asin (sqrt 2 * (x + 1/2)) + 15/32) (fun _ => PI / 64)); [|apply is_derive_const].
  apply (is_derive_plus (fun x => 1/8 * (3 * x + x * x) - 1/32 * (-1 - 2 * x) * sqrt (1 - 4 * x - 4 * x * x) + 1/16 * asin (sqrt 2 * (x + 1/2))) (fun _ => 15/32)); [|apply is_derive_const].
  apply (is_derive_plus (fun x => 1/8 * (3 * x + x * x) - 1/32 * (-1 - 2 * x) * sqrt (1 - 4 * x - 4 * x * x)) (fun x => 1/16 * asin (sqrt 2 * (x + 1/2)))).
  - auto_derive; [unfold Rminus in P; lra|reflexivity].
  - apply (is_derive_scal (fun x => asin (sqrt 2 * (x + 1/2))) x (1/16)). exact DA.
  - unfold minus, plus, opp, scal, zero; cbn; unfold mult; cbn.
    replace (sqrt (1 + - (4 * x) + - (4 * x * x))) with s by (unfold s; f_equal; ring).
    replace (sqrt 2 * / (s / sqrt 2)) with (2 / s) by (rewrite <- H0 at 1; field; split; lra).
    apply (Rmult_eq_reg_r s); [|lra].
    transitivity (1/8 * (3 + 2 * x) * s + 1/16 * (s * s) - 1/64 * ((-1 - 2 * x) * (-4 - 8 * x)) + 1/8); [field; lra|].
    replace (1/8 * (3 + 2 * x + s) * s) with (1/8 * (3 + 2 * x) * s + 1/8 * (s * s)) by ring. rewrite Hss. field.
Qed.
Lemma asin_sqrt2_half : asin (sqrt 2 * (1/2)) = PI / 4.
Proof.
  replace (sqrt 2 * (1/2)) with (1 / sqrt 2).
  - rewrite <- sin_PI4. apply asin_sin. pose proof PI_RGT_0. lra.
  - pose proof sqrt2_pos. apply (Rmult_eq_reg_r (sqrt 2)); [|lra]. replace (sqrt 2 * (1/2) * sqrt 2) with (sqrt 2 * sqrt 2 * (1/2)) by ring. rewrite sqrt2_sq. field. lra.
Qed.
Lemma heaviside_left_m2 : heaviside_left (-2) = 0.
Proof.
  unfold heaviside_left. replace (-7 - 12 * -2 - 4 * -2 * -2) with 1 by ring. replace (sqrt 2 * (-2 + 3/2)) with (- (sqrt 2 * (1/2))) by field.
  rewrite asin_opp, asin_sqrt2_half, sqrt_1. field.
Qed.
Lemma heaviside_join : heaviside_left (-1) = heaviside_right (-1).
Proof.
  unfold heaviside_left, heaviside_right. replace (-7 - 12 * -1 - 4 * -1 * -1) with 1 by ring. replace (1 - 4 * -1 - 4 * -1 * -1) with 1 by ring.
  replace (sqrt 2 * (-1 + 3/2)) with (sqrt 2 * (1/2)) by field. replace (sqrt 2 * (-1 + 1/2)) with (- (sqrt 2 * (1/2))) by field.
  rewrite asin_opp, asin_sqrt2_half, sqrt_1. field.
Qed.
Lemma heaviside_right_0 : heaviside_right 0 = 1/2.
Proof.
  unfold heaviside_right. replace (1 - 4 * 0 - 4 * 0 * 0) with 1 by ring. replace (sqrt 2 * (0 + 1/2)) with (sqrt 2 * (1/2)) by field.
  rewrite asin_sqrt2_half, sqrt_1. field.
Qed.
(** gluing two functions that agree to first order *)
Lemma glue (f g h : R -> R) a l : (forall x, x < a -> f x = g x) -> (forall x, a <= x -> f x = h x) -> g a = h a ->
  forall e, 0 < e -> forall (Hg : is_derive g a l) (Hh : is_derive h a l), is_derive f a l.
Proof.
  intros Hl Hr Hj e He Hg Hh. apply is_derive_Reals. apply is_derive_Reals in Hg. apply is_derive_Reals in Hh.
  intros eps Heps. destruct (Hg eps Heps) as [d1 H1]. destruct (Hh eps Heps) as [d2 H2].
  assert (Hd : 0 < Rmin d1 d2) by (apply Rmin_pos; [apply d1|apply d2]). exists (mkposreal _ Hd). intros k Hk Habs. cbn in Habs.
  assert (Ea : f a = h a) by (apply Hr; lra).
  destruct (Rlt_dec k 0).
  - rewrite (Hl (a + k)) by lra. rewrite Ea, <- Hj. apply H1; [exact Hk|]. eapply Rlt_le_trans; [exact Habs|apply Rmin_l].
  - rewrite (Hr (a + k)) by lra. rewrite Ea. apply H2; [exact Hk|]. eapply Rlt_le_trans; [exact Habs|apply Rmin_r].
Qed.
(** the same function near a *)
Lemma derive_near (f g : R -> R) a b c l : b < a < c -> (forall x, b < x < c -> f x = g x) -> is_derive g a l -> is_derive f a l.
Proof.
  intros Ha H D. apply (is_derive_ext_loc g); [|exact D].
  assert (Hd : 0 < Rmin (a - b) (c - a)) by (apply Rmin_pos; lra). exists (mkposreal _ Hd). intros y Hy. cbn in Hy. symmetry. apply H.
  unfold ball in Hy; cbn in Hy; unfold AbsRing_ball, abs, minus, plus, opp in Hy; cbn in Hy.
  pose proof (Rmin_l (a - b) (c - a)). pose proof (Rmin_r (a - b) (c - a)). unfold Rabs in Hy. destruct (Rcase_abs (y + - a)); lra.
Qed.
Lemma derive_const (c x : R) : is_derive (fun _ : R => c) x 0.
Proof. auto_derive; [exact I|reflexivity]. Qed.
Lemma H_far x : x < -2 -> discrete_heaviside x = 0.
Proof. intros H. unfold discrete_heaviside, heaviside_nonpos. rewrite (Rltb_false 0 x), Rltb_true by lra. reflexivity. Qed.
Lemma H_left x : -2 <= x <= -1 -> discrete_heaviside x = heaviside_left x.
Proof.
  intros H. unfold discrete_heaviside, heaviside_nonpos. rewrite (Rltb_false 0 x), (Rltb_false x (-2)) by lra.
  destruct (Rlt_dec x (-1)); [rewrite Rltb_true by lra; reflexivity|]. rewrite Rltb_false by lra. assert (x = -1) by lra. subst. symmetry. apply heaviside_join.
Qed.
Lemma H_right x : -1 <= x <= 0 -> discrete_heaviside x = heaviside_right x.
Proof. intros H. unfold discrete_heaviside, heaviside_nonpos. rewrite (Rltb_false 0 x), (Rltb_false x (-2)), Rltb_false by lra. reflexivity. Qed.
(** H(x) + H(-x) = 1 *)
Theorem C38_symmetric : forall x, discrete_heaviside x + discrete_heaviside (- x) = 1.
Proof.
  intros x. destruct (Rtotal_order x 0) as [H|[->|H]].
  - unfold discrete_heaviside. rewrite (Rltb_false 0 x), (Rltb_true 0 (- x)), Ropp_involutive by lra. lra.
  - rewrite Ropp_0, H_right, heaviside_right_0 by lra. lra.
  - unfold discrete_heaviside. rewrite (Rltb_true 0 x), (Rltb_false 0 (- x)) by lra. lra.
Qed.
Theorem C38_outside : forall x, (x <= -2 -> discrete_heaviside x = 0) /\ (2 <= x -> discrete_heaviside x = 1).
Proof.
  assert (G : forall x, x <= -2 -> discrete_heaviside x = 0).
  { intros x H. destruct (Rlt_dec x (-2)); [apply H_far; assumption|]. assert (x = -2) by lra. subst. rewrite H_left by lra. apply heaviside_left_m2. }
  intros x. split; [apply G|]. intros H. pose proof (C38_symmetric x). rewrite (G (- x)) in H0 by lra. lra.
Qed.
(** the derivative is the discrete delta, at every point *)
Theorem C38_derivative : forall x, derivable_pt_lim discrete_heaviside x (discrete_delta x).
Proof.
  assert (G : forall x, x < 0 -> is_derive discrete_heaviside x (discrete_delta x)).
  { intros x Hx. destruct (Rtotal_order x (-2)) as [H|[->|H]].
    - rewrite C37_support by (unfold Rabs; destruct (Rcase_abs x); lra). apply (derive_near _ (fun _ => 0) x (x - 1) (-2)); [lra|intros y Hy; apply H_far; lra|apply derive_const].
    - rewrite C37_support by (unfold Rabs; destruct (Rcase_abs (-2)); lra).
      apply (derive_near _ (fun y => if Rltb y (-2) then 0 else heaviside_left y) (-2) (-3) (-1)); [lra| |].
      + intros y Hy. destruct (Rlt_dec y (-2)); [rewrite Rltb_true by lra; apply H_far; lra|rewrite Rltb_false by lra; apply H_left; lra].
      + apply (glue _ (fun _ => 0) heaviside_left (-2) 0) with (e := 1); try lra.
        * intros y Hy. rewrite Rltb_true by lra. reflexivity.
        * intros y Hy. rewrite Rltb_false by lra. reflexivity.
        * symmetry. apply heaviside_left_m2.
        * apply derive_const.
        * evar_last. apply left_derive; lra. replace (-7 - 12 * -2 - 4 * -2 * -2) with 1 by ring. rewrite sqrt_1. lra.
    - destruct (Rtotal_order x (-1)) as [H1|[->|H1]].
      + rewrite delta_on_left by lra. apply (derive_near _ heaviside_left x (-2) (-1)); [lra|intros y Hy; apply H_left; lra|apply left_derive; lra].
      + apply (derive_near _ (fun y => if Rltb y (-1) then heaviside_left y else heaviside_right y) (-1) (-2) 0); [lra| |].
        * intros y Hy. destruct (Rlt_dec y (-1)); [rewrite Rltb_true by lra; apply H_left; lra|rewrite Rltb_false by lra; apply H_right; lra].
        * apply (glue _ heaviside_left heaviside_right (-1)) with (e := 1); try lra.
          -- intros y Hy. rewrite Rltb_true by lra. reflexivity.
          -- intros y Hy. rewrite Rltb_false by lra. reflexivity.
          -- apply heaviside_join.
          -- rewrite delta_on_left by lra. apply left_derive; lra.
          -- rewrite delta_on_right by lra. apply right_derive; lra.
      + rewrite delta_on_right by lra. apply (derive_near _ heaviside_right x (-1) 0); [lra|intros y Hy; apply H_right; lra|apply right_derive; lra]. }
  assert (R : forall l x, is_derive discrete_heaviside (- x) l -> is_derive (fun y => 1 - discrete_heaviside (- y)) x l).
  { intros l x D. evar_last. apply (is_derive_minus (fun _ => 1) (fun y => discrete_heaviside (- y))); [apply derive_const|].
    apply (is_derive_comp discrete_heaviside (fun y => - y)); [exact D|]. auto_derive; [exact I|reflexivity].
    unfold minus, plus, opp, scal, zero; cbn; unfold mult; cbn. ring. }
  assert (E : forall y, discrete_heaviside y = 1 - discrete_heaviside (- y)) by (intros y; pose proof (C38_symmetric y); lra).
  intros x. apply is_derive_Reals. destruct (Rtotal_order x 0) as [H|[->|H]]; [apply G; assumption| |].
  - apply (derive_near _ (fun y => if Rltb y 0 then heaviside_right y else 1 - heaviside_right (- y)) 0 (-1) 1); [lra| |].
    + intros y Hy. destruct (Rlt_dec y 0); [rewrite Rltb_true by lra; apply H_right; lra|]. rewrite Rltb_false by lra. rewrite E, H_right by lra. reflexivity.
    + apply (glue _ heaviside_right (fun y => 1 - heaviside_right (- y)) 0) with (e := 1); try lra.
      * intros y Hy. rewrite Rltb_true by lra. reflexivity.
      * intros y Hy. rewrite Rltb_false by lra. reflexivity.
      * rewrite Ropp_0, heaviside_right_0. lra.
      * rewrite delta_on_right by lra. apply right_derive; lra.
      * rewrite delta_on_right by lra. evar_last. apply (is_derive_minus (fun _ => 1) (fun y => heaviside_right (- y))); [apply derive_const|].
        apply (is_derive_comp heaviside_right (fun y => - y)); [apply right_derive; lra|]. auto_derive; [exact I|reflexivity].
        unfold minus, plus, opp, scal, zero; cbn; unfold mult; cbn. rewrite Ropp_0. ring.
  - apply (is_derive_ext (fun y => 1 - discrete_heaviside (- y))); [intros t; symmetry; apply E|]. apply R. rewrite <- C37_even. apply G. lra.
Qed.
Theorem C38_monotone : forall x y, x <= y -> discrete_heaviside x <= discrete_heaviside y.
Proof.
  intros x y H. destruct (Req_dec x y) as [->|Hn]; [lra|].
  destruct (MVT_cor2 discrete_heaviside discrete_delta x y) as (c & E & _); [lra|intros; apply C38_derivative|].
  pose proof (C37_nonnegative c). nra.
Qed.
Theorem C38_range : forall x, 0 <= discrete_heaviside x <= 1.
Proof.
  intros x. destruct (C38_outside (Rmin x (-2))) as [L _]. destruct (C38_outside (Rmax x 2)) as [_ U]. split.
  - rewrite <- L by apply Rmin_r. apply C38_monotone, Rmin_l.
  - rewrite <- U by apply Rmax_r. apply C38_monotone, Rmax_l.
Qed.
Theorem C38_continuous : forall x, continuity_pt discrete_heaviside x.
Proof. intros x. apply derivable_continuous_pt. exists (discrete_delta x). apply C38_derivative. Qed.
Print Assumptions C38_symmetric.
Print Assumptions C38_outside.
Print Assumptions C38_derivative.
Print Assumptions C38_monotone.
Print Assumptions C38_range.
Print Assumptions C38_continuous.
Example C38_nonvacuous : discrete_heaviside 0 = 1/2 /\ discrete_heaviside (-1) = (6 - PI) / 32.
Proof.
  split; [rewrite H_right, heaviside_right_0 by lra; lra|]. rewrite H_left by lra. unfold heaviside_left.
  replace (-7 - 12 * -1 - 4 * -1 * -1) with 1 by ring. replace (sqrt 2 * (-1 + 3/2)) with (sqrt 2 * (1/2)) by field. rewrite asin_sqrt2_half, sqrt_1. field.
Qed.
