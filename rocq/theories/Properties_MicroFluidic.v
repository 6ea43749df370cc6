(** * The micro fluidic program: C124 *)
From stdpp Require Import gmap numbers list.
From Coq Require Import ZArith NArith Reals Bool List Lra Lia.
From Verif Require Import SumR Model_Boundary Model_Curvature Model_MicroFluidic.
From Verif Require Properties_Boundary.
Import ListNotations.
Open Scope R_scope.

(** ** Specification *)
(** The conditions a face of the boundary can have *)
Inductive condition := Wall | Inlet (k : nat) | Outlet.
(** the boundary of the channel: its two side ends at x = -2 and x = 3, its lower end at y = -1/2, its upper
    end at y = 8 and, in three space dimensions, the plates at z = 0 and z = 1.  A coordinate other than
    these values is at least 1e-14 away from them. *)
Definition apart (x a : R) : Prop := x = a \/ 1 / 100000000000000 <= Rabs (x - a).
Definition resolved (dim : nat) (p : nat -> R) : Prop :=
  apart (p 0%nat) (- 2) /\ apart (p 0%nat) 3 /\ apart (p 1%nat) (- (1 / 2)) /\ apart (p 1%nat) 8 /\
  (dim = 3%nat -> apart (p 2%nat) 0 /\ apart (p 2%nat) 1).
Definition on_plate (dim : nat) (p : nat -> R) : Prop := dim = 3%nat /\ (p 2%nat = 0 \/ p 2%nat = 1).
(** what the user expects at a face with centre p *)
Inductive expected (dim : nat) (p : nat -> R) : condition -> Prop :=
| at_plate : on_plate dim p -> expected dim p Wall
| at_left : ~ on_plate dim p -> p 0%nat = - 2 -> - (1 / 2) < p 1%nat < 8 -> expected dim p (Inlet 1)
| at_right : ~ on_plate dim p -> p 0%nat = 3 -> - (1 / 2) < p 1%nat < 8 -> expected dim p (Inlet 3)
| at_bottom : ~ on_plate dim p -> p 1%nat = - (1 / 2) -> expected dim p (Inlet 2)
| at_top : ~ on_plate dim p -> p 1%nat = 8 -> expected dim p Outlet
| elsewhere : ~ on_plate dim p -> - 2 < p 0%nat < 3 -> - (1 / 2) < p 1%nat < 8 -> expected dim p Wall.
(** the registry imposes the condition [c] and no other one at the boundary id [b] *)
Definition imposes (dim : N) (r : registry) (b : N) (c : condition) : Prop :=
  ~ b ∈ symmetry r /\ pressure_fix r !! b = None /\ (forall d, periodic r d = (invalid_id, invalid_id)) /\
  match c with
  | Wall => imposed_velocity dim r !! b = Some (ZeroFun dim) /\ open_p r !! b = None /\ ~ b ∈ normal_flux r
  | Inlet k => imposed_velocity dim r !! b = Some (UserFun k dim) /\ ~ b ∈ no_slip r /\ open_p r !! b = None /\ ~ b ∈ normal_flux r
  | Outlet => imposed_velocity dim r !! b = None /\ open_p r !! b = Some (ConstFun 50 1) /\ b ∈ normal_flux r
  end.
(** the boundary ids of the faces before the program marks them: the mesh file (applications/microfluidic_2D.msh)
    has only quadrilaterals, so all lines of the boundary have the id 0; the faces of
    an extruded mesh keep the id of the line they come from, the two plates get new ids *)
Definition given_by_mesh (dim : nat) (f : mface) : Prop :=
  (dim = 2%nat /\ mf_id f = 0%N) \/
  (dim = 3%nat /\ (on_plate dim (mf_centre f) \/ exists f2, mf_boundary f2 = true /\ mf_id f2 = 0%N /\
     mf_centre f2 0%nat = mf_centre f 0%nat /\ mf_centre f2 1%nat = mf_centre f 1%nat /\ mf_id f = mf_id (mark_face 2 f2))).

(** ** Facts about the comparisons *)
Lemma ltb_spec a b : mf_ltb a b = true <-> a < b.
Proof. unfold mf_ltb. destruct (Rlt_dec a b); split; intros; auto; congruence. Qed.
Lemma leb_spec a b : mf_leb a b = true <-> a <= b.
Proof. unfold mf_leb. destruct (Rle_dec a b); split; intros; auto; congruence. Qed.
Lemma close_at x a : x = a -> close x a = true.
Proof. intros ->. apply ltb_spec. rewrite Rminus_eq_0, Rabs_R0. lra. Qed.
Lemma close_not x a : apart x a -> x <> a -> close x a = false.
Proof. intros [H|H] N; [contradiction|]. unfold close, mf_ltb. destruct (Rlt_dec _ _); [lra|reflexivity]. Qed.
Lemma close_far x a : 1 <= Rabs (x - a) -> close x a = false.
Proof. intros H. unfold close, mf_ltb. destruct (Rlt_dec _ _); [lra|reflexivity]. Qed.

(** the boundary id a face gets *)
Definition new_id (dim : nat) (f : mface) : N :=
  let x := mf_centre f 0%nat in let y := mf_centre f 1%nat in let z := mf_centre f 2%nat in
  if Nat.eqb dim 3 && (close z 0 || close z 1) then 0%N
  else if close y 8 then 4%N else if close y (- (1 / 2)) then 2%N
  else if close x 3 then 3%N else if close x (- 2) then 1%N else mf_id f.
Lemma id_with_id (b : bool) n f : mf_id (if b then with_id n f else f) = if b then n else mf_id f.
Proof. destruct b; reflexivity. Qed.
Lemma id_with_manifold (b : bool) n f : mf_id (if b then with_manifold n f else f) = mf_id f.
Proof. destruct b; reflexivity. Qed.
Lemma keep_with_id (b : bool) n f : mf_centre (if b then with_id n f else f) = mf_centre f.
Proof. destruct b; reflexivity. Qed.
Lemma keep_with_manifold (b : bool) n f : mf_centre (if b then with_manifold n f else f) = mf_centre f.
Proof. destruct b; reflexivity. Qed.
Lemma mark_id dim f : mf_boundary f = true -> mf_id (mark_face dim f) = new_id dim f.
Proof.
  intros B. unfold mark_face, new_id. rewrite B. cbn [andb]. cbv zeta.
  destruct (Nat.eqb dim 3); cbn [andb]; rewrite ?id_with_id, ?id_with_manifold, ?id_with_id;
  destruct (close (mf_centre f 2%nat) 0), (close (mf_centre f 2%nat) 1); cbn [orb]; reflexivity.
Qed.
Lemma mark_keeps dim f : mf_centre (mark_face dim f) = mf_centre f.
Proof.
  unfold mark_face. cbv zeta. destruct (mf_boundary f); cbn [andb]; destruct (Nat.eqb dim 3); rewrite ?keep_with_id, ?keep_with_manifold, ?keep_with_id; reflexivity.
Qed.

(** ** The registry *)
(** the condition of every boundary id *)
Lemma registry_imposes (dim : N) pc (b : N) c : dim = 2%N \/ dim = 3%N ->
  (b = 0%N /\ c = Wall) \/ (b = 1%N /\ c = Inlet 1) \/ (b = 2%N /\ c = Inlet 2) \/ (b = 3%N /\ c = Inlet 3) \/ (b = 4%N /\ c = Outlet) ->
  imposes dim (run dim (micro_calls dim pc) empty_registry) b c.
Proof.
  intros D H. unfold imposes.
  assert (Pe : forall d, periodic (run dim (micro_calls dim pc) empty_registry) d = (invalid_id, invalid_id)) by (intros d; destruct D as [-> | ->], pc; vm_compute; reflexivity).
  destruct D as [-> | ->], pc, H as [[-> ->]|[[-> ->]|[[-> ->]|[[-> ->]|[-> ->]]]]];
  repeat (match goal with |- _ /\ _ => split end);
  first [exact Pe | apply (bool_decide_eq_false_1 _); vm_compute; reflexivity | apply (bool_decide_eq_true_1 _); vm_compute; reflexivity | vm_compute; reflexivity].
Qed.

(** ** C124: every face of the boundary gets exactly the condition of its place, and the setup accepts the
    conditions *)
Theorem C124_conditions : forall (dim : nat) (pressure_constraint : bool) (faces : list mface) (f : mface) (c : condition),
  dim = 2%nat \/ dim = 3%nat -> In f faces ->
  mf_boundary f = true -> resolved dim (mf_centre f) -> given_by_mesh dim f -> expected dim (mf_centre f) c ->
  let r := run (N.of_nat dim) (micro_calls (N.of_nat dim) pressure_constraint) empty_registry in
  setup_checks (N.of_nat dim) r = Done /\
  exists g, In g (set_boundary_indicators dim faces) /\ mf_centre g = mf_centre f /\ imposes (N.of_nat dim) r (mf_id g) c.
Proof.
  intros dim pc faces f c D Hin B Rs M E r. split.
  { unfold r. destruct D as [-> | ->], pc; vm_compute; reflexivity. }
  exists (mark_face dim f). split; [apply in_map; exact Hin|]. split; [apply mark_keeps|]. unfold r. apply registry_imposes; [destruct D as [-> | ->]; auto|]. rewrite (mark_id dim f B).
  destruct Rs as (R1 & R2 & R3 & R4 & R5).
  assert (PL : on_plate dim (mf_centre f) -> new_id dim f = 0%N).
  { intros [-> [Z|Z]]; unfold new_id; cbn [Nat.eqb andb]; rewrite (close_at _ _ Z); rewrite ?orb_true_r; reflexivity. }
  assert (NP : ~ on_plate dim (mf_centre f) -> Nat.eqb dim 3 && (close (mf_centre f 2%nat) 0 || close (mf_centre f 2%nat) 1) = false).
  { intros N. destruct D as [-> | ->]; [reflexivity|]. destruct (R5 eq_refl) as [Q0 Q1]. cbn [Nat.eqb andb].
    rewrite (close_not _ _ Q0), (close_not _ _ Q1); [reflexivity| |]; intros Z; apply N; split; auto. }
  destruct E as [E|E X Y|E X Y|E Y|E Y|E X Y].
  - left. split; [apply PL; exact E|reflexivity].
  - right. left. split; [|reflexivity]. unfold new_id. rewrite (NP E). rewrite (close_not _ _ R4) by lra. rewrite (close_not _ _ R3) by lra. rewrite (close_not _ _ R2) by lra. rewrite (close_at _ _ X). reflexivity.
  - right. right. right. left. split; [|reflexivity]. unfold new_id. rewrite (NP E). rewrite (close_not _ _ R4) by lra. rewrite (close_not _ _ R3) by lra. rewrite (close_at _ _ X). reflexivity.
  - right. right. left. split; [|reflexivity]. unfold new_id. rewrite (NP E). rewrite (close_not _ _ R4) by lra. rewrite (close_at _ _ Y). reflexivity.
  - right. right. right. right. split; [|reflexivity]. unfold new_id. rewrite (NP E). rewrite (close_at _ _ Y). reflexivity.
  - left. split; [|reflexivity]. unfold new_id. rewrite (NP E). rewrite (close_not _ _ R4) by lra. rewrite (close_not _ _ R3) by lra. rewrite (close_not _ _ R2) by lra. rewrite (close_not _ _ R1) by lra.
    destruct M as [[_ M]|[_ [M|(f2 & B2 & I2 & X2 & Y2 & M)]]]; [exact M|contradiction|]. rewrite M, (mark_id 2 f2 B2). unfold new_id. cbn [Nat.eqb andb]. rewrite X2, Y2.
    rewrite (close_not _ _ R4) by lra. rewrite (close_not _ _ R3) by lra. rewrite (close_not _ _ R2) by lra. rewrite (close_not _ _ R1) by lra. exact I2.
Qed.
Print Assumptions C124_conditions.

(** ** The velocities at the inlets *)
(** the outward normal vector of the channel at its three inlets *)
Definition outward (k : nat) (d : nat) : R :=
  match k, d with 1%nat, 0%nat => - 1 | 2%nat, 1%nat => - 1 | 3%nat, 0%nat => 1 | _, _ => 0 end.
Lemma sine_grows t : 0 < t -> t < 1 / 100 -> 0 < sin (PI * t / (2 / 100)) <= 1.
Proof.
  intros A B. pose proof PI_RGT_0 as P. split; [|apply SIN_bound].
  replace (PI * t / (2 / 100)) with (PI * (50 * t)) by field. apply sin_gt_0; [nra|nra].
Qed.
Lemma ramp_positive t v : 0 < t -> 0 < v -> 0 < ramped t v <= v.
Proof.
  intros A B. unfold ramped, mf_leb, mf_ltb. destruct (Rle_dec t 0); [lra|]. destruct (Rlt_dec t (1 / 100)); [|lra].
  pose proof (sine_grows t A r). nra.
Qed.
Lemma ramp_opp t v : ramped t (- v) = - ramped t v.
Proof. unfold ramped. destruct (mf_leb t 0), (mf_ltb t (1 / 100)); ring. Qed.
Lemma ramp_lin t v : ramped t v = v * ramped t 1.
Proof. unfold ramped. destruct (mf_leb t 0), (mf_ltb t (1 / 100)); ring. Qed.
Lemma ramp_zero t : ramped t 0 = 0.
Proof. rewrite ramp_lin. ring. Qed.

Theorem C124_inflow : forall (dim k : nat) (t : R) (p : nat -> R),
  dim = 2%nat \/ dim = 3%nat -> k = 1%nat \/ k = 2%nat \/ k = 3%nat ->
  exists u, (forall d, inlet_velocity k t p d = Some (u d)) /\
  (t <= 0 -> forall d, u d = 0) /\
  (0 < t -> sumn dim (fun d => u d * outward k d) < 0) /\
  (1 / 100 <= t -> sumn dim (fun d => u d * outward k d) =
     match k with 1%nat => - (1 / 2) | 2%nat => - 1 | _ => - 10 end).
Proof.
  intros dim k t p D K.
  assert (Z0 : forall v, t <= 0 -> ramped t v = 0). { intros v H. unfold ramped, mf_leb. destruct (Rle_dec t 0); [reflexivity|lra]. }
  assert (Z1 : forall v, 1 / 100 <= t -> ramped t v = v). { intros v H. unfold ramped, mf_leb, mf_ltb. destruct (Rle_dec t 0); [lra|]. destruct (Rlt_dec t (1 / 100)); [lra|reflexivity]. }
  destruct K as [-> |[-> | ->]].
  - exists (fun d => ramped t (if Nat.eqb d 0 then 1 / 2 else 0)). split; [intros d; reflexivity|]. split; [intros; apply Z0; assumption|].
    split; intros H; destruct D as [-> | ->]; cbn [sumn Nat.eqb outward].
    1,2: pose proof (ramp_positive t (1 / 2) H ltac:(lra)); lra.
    all: rewrite (Z1 (1 / 2) H); lra.
  - exists (fun d => ramped t (if Nat.eqb d 0 then 0 else 1)). split; [intros d; reflexivity|]. split; [intros; apply Z0; assumption|].
    split; intros H; destruct D as [-> | ->]; cbn [sumn Nat.eqb outward].
    1,2: pose proof (ramp_positive t 1 H ltac:(lra)); lra.
    all: rewrite (Z1 1 H); lra.
  - exists (fun d => ramped t (if Nat.eqb d 0 then - (10) else 0)). split; [intros d; reflexivity|]. split; [intros; apply Z0; assumption|].
    split; intros H; destruct D as [-> | ->]; cbn [sumn Nat.eqb outward].
    1,2: rewrite (ramp_opp t 10); pose proof (ramp_positive t 10 H ltac:(lra)); lra.
    all: rewrite (Z1 (- (10)) H); lra.
Qed.
Print Assumptions C124_inflow.

(** the fraction of the final velocity: a quarter period of the sine of the time clamped to [0, 0.01] *)
Definition clamp (t : R) : R := let m := (1 + 100 * t - Rabs (1 - 100 * t)) / 2 in (m + Rabs m) / 2.
Lemma clamp_low t : t <= 0 -> clamp t = 0.
Proof. intros H. unfold clamp. cbv zeta. rewrite (Rabs_right (1 - 100 * t)) by lra. rewrite Rabs_left1 by lra. lra. Qed.
Lemma clamp_mid t : 0 <= t <= 1 / 100 -> clamp t = 100 * t.
Proof. intros H. unfold clamp. cbv zeta. rewrite (Rabs_right (1 - 100 * t)) by lra. rewrite Rabs_right by lra. lra. Qed.
Lemma clamp_high t : 1 / 100 <= t -> clamp t = 1.
Proof. intros H. unfold clamp. cbv zeta. rewrite (Rabs_left1 (1 - 100 * t)) by lra. rewrite Rabs_right by lra. lra. Qed.
Lemma clamp_bounds t : 0 <= clamp t <= 1.
Proof. destruct (Rle_dec t 0); [rewrite clamp_low by lra; lra|]. destruct (Rle_dec t (1 / 100)); [rewrite clamp_mid by lra; lra|rewrite clamp_high by lra; lra]. Qed.
Lemma clamp_mono t1 t2 : t1 <= t2 -> clamp t1 <= clamp t2.
Proof.
  intros H. destruct (Rle_dec t1 0); [rewrite (clamp_low t1) by lra; apply clamp_bounds|].
  destruct (Rle_dec (1 / 100) t2); [rewrite (clamp_high t2) by lra; apply clamp_bounds|].
  rewrite !clamp_mid by lra. lra.
Qed.
Lemma ramp_clamp t v : ramped t v = v * sin (PI / 2 * clamp t).
Proof.
  unfold ramped, mf_leb, mf_ltb. destruct (Rle_dec t 0).
  - rewrite clamp_low by lra. rewrite Rmult_0_r, sin_0. ring.
  - destruct (Rlt_dec t (1 / 100)).
    + rewrite clamp_mid by lra. f_equal. f_equal. field.
    + rewrite clamp_high by lra. rewrite Rmult_1_r, sin_PI2. ring.
Qed.
Lemma clamp_continuous : continuity clamp.
Proof.
  intros t. unfold clamp. cbv zeta.
  assert (A : continuity_pt (fun t => (1 + 100 * t - Rabs (1 - 100 * t)) / 2) t).
  { apply continuity_pt_mult; [|apply continuity_pt_const; intros ? ?; reflexivity]. apply continuity_pt_minus; [apply derivable_continuous_pt; reg|].
    apply (continuity_pt_comp (fun t => 1 - 100 * t) Rabs); [apply derivable_continuous_pt; reg|apply Rcontinuity_abs]. }
  apply continuity_pt_mult; [|apply continuity_pt_const; intros ? ?; reflexivity]. apply continuity_pt_plus; [exact A|].
  apply (continuity_pt_comp (fun t => (1 + 100 * t - Rabs (1 - 100 * t)) / 2) Rabs); [exact A|apply Rcontinuity_abs].
Qed.
Theorem C124_ramp : forall (k d : nat) (p : nat -> R) (u : R -> R),
  (forall t, inlet_velocity k t p d = Some (u t)) ->
  continuity u /\
  (forall t, t <= 0 -> u t = 0) /\
  (forall t1 t2, t1 <= t2 -> Rabs (u t1) <= Rabs (u t2)) /\
  (forall t, 1 / 100 <= t -> u t = u (1 / 100)).
Proof.
  intros k d p u H. unfold inlet_velocity in H. destruct (inlet_profile k d) as [v|]; [|specialize (H 0); discriminate].
  assert (U : forall t, u t = v * sin (PI / 2 * clamp t)) by (intros t; specialize (H t); injection H as <-; apply ramp_clamp). pose proof PI_RGT_0 as P.
  split; [|split; [|split]].
  - intros t. apply (continuity_pt_locally_ext (fun t => v * sin (PI / 2 * clamp t)) u 1); [lra|intros; symmetry; apply U|].
    apply continuity_pt_mult; [apply continuity_pt_const; intros ? ?; reflexivity|]. apply (continuity_pt_comp (fun t => PI / 2 * clamp t) sin); [|apply continuity_sin].
    apply continuity_pt_mult; [apply continuity_pt_const; intros ? ?; reflexivity|apply clamp_continuous].
  - intros t Ht. rewrite U, clamp_low by lra. rewrite Rmult_0_r, sin_0. ring.
  - intros t1 t2 Ht. rewrite !U, !Rabs_mult. apply Rmult_le_compat_l; [apply Rabs_pos|]. pose proof (clamp_bounds t1) as B1. pose proof (clamp_bounds t2) as B2. pose proof (clamp_mono _ _ Ht) as M.
    rewrite !Rabs_right; [apply sin_incr_1; nra|apply Rle_ge, sin_ge_0; nra|apply Rle_ge, sin_ge_0; nra].
  - intros t Ht. rewrite !U, !clamp_high by lra. reflexivity.
Qed.
Print Assumptions C124_ramp.

(** ** The initial particle and the fluid at the inlets *)
Definition inside_ball (dim : nat) (p : nat -> R) : Prop := sumn dim (fun d => (p d - 1 / 2) * (p d - 1 / 2)) < 1 / 4 * (1 / 4).
Definition outside_ball (dim : nat) (p : nat -> R) : Prop := 1 / 4 * (1 / 4) < sumn dim (fun d => (p d - 1 / 2) * (p d - 1 / 2)).
Lemma tanh_pos x : 0 < x -> 0 < tanh x < 1.
Proof.
  intros H. unfold tanh, sinh, cosh. pose proof (exp_increasing (- x) x ltac:(lra)) as E. pose proof (exp_pos (- x)) as P. pose proof (exp_pos x) as Q.
  split; [apply Rdiv_lt_0_compat; lra|]. apply (Rmult_lt_reg_r ((exp x + exp (- x)) / 2)); [lra|]. unfold Rdiv at 1. rewrite Rmult_assoc, Rinv_l by lra. lra.
Qed.
Lemma tanh_neg x : tanh (- x) = - tanh x.
Proof. unfold tanh, sinh, cosh. rewrite Ropp_involutive. pose proof (exp_pos (- x)). pose proof (exp_pos x). field. lra. Qed.
Theorem C124_particle : forall (dim : nat) (epsilon_used : R) (p : nat -> R), 0 < epsilon_used ->
  (inside_ball dim p -> 0 < initial_level_set dim epsilon_used p < 1) /\
  (outside_ball dim p -> - 1 < initial_level_set dim epsilon_used p < 0).
Proof.
  intros dim eps p He. unfold initial_level_set, ls_transform, initial_distance, inside_ball, outside_ball.
  set (q := sumn dim (fun d => (p d - 1 / 2) * (p d - 1 / 2))).
  assert (Q : 0 <= q) by (apply sumn_nonneg; intros; apply Rle_0_sqr). clearbody q.
  assert (Hs : sqrt (1 / 4 * (1 / 4)) = 1 / 4) by (apply sqrt_square; lra). split; intros H.
  - assert (L : sqrt q < 1 / 4) by (rewrite <- Hs; apply sqrt_lt_1; lra).
    replace ((sqrt q - 1 / 4) / (2 * eps)) with (- ((1 / 4 - sqrt q) / (2 * eps))) by (field; lra). rewrite tanh_neg, Ropp_involutive. apply tanh_pos. apply Rdiv_lt_0_compat; lra.
  - assert (L : 1 / 4 < sqrt q) by (rewrite <- Hs; apply sqrt_lt_1; lra).
    assert (T := tanh_pos ((sqrt q - 1 / 4) / (2 * eps)) ltac:(apply Rdiv_lt_0_compat; lra)). lra.
Qed.
Print Assumptions C124_particle.

(** at the inlets the initial values are those of the fluid -1, which is the one registered to flow in *)
Theorem C124_inlet_fluid : forall (dim : nat) (epsilon_used : R) (p : nat -> R) (k : nat) (pressure_constraint : bool),
  dim = 2%nat \/ dim = 3%nat -> 0 < epsilon_used -> ~ on_plate dim p -> expected dim p (Inlet k) ->
  - 1 < initial_level_set dim epsilon_used p < 0 /\
  fluid_type (run (N.of_nat dim) (micro_calls (N.of_nat dim) pressure_constraint) empty_registry) !! N.of_nat k = Some (ConstFun (-1) 1) /\
  (exists m, imposed_after (N.of_nat dim) OKZMatrix (map Register (micro_calls (N.of_nat dim) pressure_constraint)) = Some m /\
     m !! N.of_nat k = Some (ConstFun (-1) 1)).
Proof.
  intros dim eps p k pc D He NP E.
  assert (K : k = 1%nat \/ k = 2%nat \/ k = 3%nat) by (inversion E; auto). split; [|split].
  - apply C124_particle; [exact He|]. unfold outside_ball.
    assert (T : (p 0%nat - 1 / 2) * (p 0%nat - 1 / 2) + (p 1%nat - 1 / 2) * (p 1%nat - 1 / 2) <= sumn dim (fun d => (p d - 1 / 2) * (p d - 1 / 2))).
    { pose proof (Rle_0_sqr (p 2%nat - 1 / 2)) as Z. unfold Rsqr in Z. destruct D as [-> | ->]; cbn [sumn]; lra. }
    pose proof (Rle_0_sqr (p 0%nat - 1 / 2)) as Z0. pose proof (Rle_0_sqr (p 1%nat - 1 / 2)) as Z1. unfold Rsqr in Z0, Z1.
    inversion E as [|? X ?|? X ?|? X|?|]; subst; rewrite X in *; lra.
  - destruct D as [-> | ->], K as [-> |[-> | ->]], pc; vm_compute; reflexivity.
  - destruct D as [-> | ->], K as [-> |[-> | ->]], pc; eexists; (split; [reflexivity|vm_compute; reflexivity]).
Qed.
Print Assumptions C124_inlet_fluid.
(** Violation: the default method "level set okz" of the program does not impose the registered fluid anywhere *)
Theorem C124_violation_inlet_fluid : forall (dim : nat) (pressure_constraint : bool),
  imposed_after (N.of_nat dim) OKZ (map Register (micro_calls (N.of_nat dim) pressure_constraint)) = Some ∅.
Proof. intros. apply (proj1 Properties_Boundary.C18_fluid_types_reach_advection_refuted). Qed.
Print Assumptions C124_violation_inlet_fluid.

(** Violation: the inflow is constant over the inlet, up to the walls where the fluid sticks: for every positive
    time and every point of an inlet some velocity component is non-zero, so the boundary velocity jumps at the
    edges of all three inlets; and in three space dimensions the velocity at the lower inlet is not normal to
    it: it has the component along z of the same size, directed into the plate z = 1 *)
Theorem C124_violation_profile : forall (t : R), 0 < t ->
  (forall k p, k = 1%nat \/ k = 2%nat \/ k = 3%nat -> exists d v, (d < 2)%nat /\ inlet_velocity k t p d = Some v /\ v <> 0 /\
     forall p', inlet_velocity k t p' d = Some v) /\
  (forall p, exists v, inlet_velocity 2 t p 1 = Some v /\ inlet_velocity 2 t p 2 = Some v /\ 0 < v).
Proof.
  intros t Ht. split.
  - intros k p [-> |[-> | ->]].
    + exists 0%nat, (ramped t (1 / 2)). pose proof (ramp_positive t (1 / 2) Ht ltac:(lra)). split; [lia|]. split; [reflexivity|]. split; [lra|intros; reflexivity].
    + exists 1%nat, (ramped t 1). pose proof (ramp_positive t 1 Ht ltac:(lra)). split; [lia|]. split; [reflexivity|]. split; [lra|intros; reflexivity].
    + exists 0%nat, (ramped t (- (10))). rewrite ramp_opp. pose proof (ramp_positive t 10 Ht ltac:(lra)). split; [lia|]. split; [unfold inlet_velocity; cbn; rewrite <- ramp_opp; reflexivity|]. split; [lra|intros; unfold inlet_velocity; cbn; rewrite <- ramp_opp; reflexivity].
  - intros p. exists (ramped t 1). split; [reflexivity|]. split; [reflexivity|]. apply ramp_positive; lra.
Qed.
Print Assumptions C124_violation_profile.

(** ** The rounded corners *)
(** the four corners of the channel are quarter circles of radius one *)
Inductive corner := LowerLeft | LowerRight | UpperRight | UpperLeft.
Definition corner_manifold (c : corner) : N := match c with LowerLeft => 12%N | LowerRight => 23%N | UpperRight => 34%N | UpperLeft => 41%N end.
Definition on_corner (c : corner) (x y : R) : Prop :=
  match c with
  | LowerLeft => (x + 1) * (x + 1) + (y - 1 / 2) * (y - 1 / 2) = 1 /\ - 1 <= x /\ 1 / 2 <= y
  | LowerRight => (x - 2) * (x - 2) + (y - 1 / 2) * (y - 1 / 2) = 1 /\ x <= 2 /\ 1 / 2 <= y
  | UpperRight => (x - 2) * (x - 2) + (y - 9 / 2) * (y - 9 / 2) = 1 /\ x <= 2 /\ y <= 9 / 2
  | UpperLeft => (x + 1) * (x + 1) + (y - 9 / 2) * (y - 9 / 2) = 1 /\ - 1 <= x /\ y <= 9 / 2
  end.
Lemma between_in a x b : a <= x -> x <= b -> between a x b = true.
Proof. intros H1 H2. unfold between. apply andb_true_intro. split; apply leb_spec; assumption. Qed.
Lemma between_out a x b : x < a \/ b < x -> between a x b = false.
Proof. intros H. unfold between, mf_leb. destruct (Rle_dec x b), (Rle_dec a x); try reflexivity; lra. Qed.
Definition new_manifold (f : mface) : N :=
  let x := mf_centre f 0%nat in let y := mf_centre f 1%nat in
  if between (7 / 2) y (9 / 2) && between (- 1) x 0 then 41%N
  else if between (7 / 2) y (9 / 2) && between 1 x 2 then 34%N
  else if between (1 / 2) y (3 / 2) && between 1 x 2 then 23%N
  else if between (1 / 2) y (3 / 2) && between (- 1) x 0 then 12%N else mf_manifold f.
Lemma man_with_id (b : bool) n f : mf_manifold (if b then with_id n f else f) = mf_manifold f.
Proof. destruct b; reflexivity. Qed.
Lemma man_with_manifold (b : bool) n f : mf_manifold (if b then with_manifold n f else f) = if b then n else mf_manifold f.
Proof. destruct b; reflexivity. Qed.
Lemma mark_manifold dim f : mf_boundary f = true -> mf_manifold (mark_face dim f) = new_manifold f.
Proof.
  intros B. unfold mark_face, new_manifold. rewrite B. cbn [andb]. cbv zeta.
  destruct (Nat.eqb dim 3); rewrite ?man_with_id, ?man_with_manifold, ?man_with_id; reflexivity.
Qed.
Lemma unit_circle a b : a * a + b * b = 1 -> - 1 <= a <= 1 /\ - 1 <= b <= 1.
Proof. intros H. pose proof (Rle_0_sqr a) as A. pose proof (Rle_0_sqr b) as B. unfold Rsqr in *. split; split; nra. Qed.
Theorem C124_corners : forall (dim : nat) (f : mface), mf_boundary f = true ->
  (** a face whose ends (in the x-y plane) lie on a corner gets the manifold of this corner *)
  (forall c x1 y1 x2 y2, on_corner c x1 y1 -> on_corner c x2 y2 ->
     mf_centre f 0%nat = (x1 + x2) / 2 -> mf_centre f 1%nat = (y1 + y2) / 2 -> mf_manifold (mark_face dim f) = corner_manifold c) /\
  (** the faces of the inlets, of the outlet and of the straight walls keep theirs *)
  (mf_centre f 0%nat < - 1 \/ 2 < mf_centre f 0%nat \/ mf_centre f 1%nat < 1 / 2 \/ 9 / 2 < mf_centre f 1%nat \/
   (3 / 2 < mf_centre f 1%nat < 7 / 2) \/ (0 < mf_centre f 0%nat < 1) ->
   mf_manifold (mark_face dim f) = mf_manifold f).
Proof.
  intros dim f B. rewrite (mark_manifold dim f B). unfold new_manifold. split.
  - intros c x1 y1 x2 y2 H1 H2 X Y. rewrite X, Y. destruct c; cbn [on_corner corner_manifold] in *; destruct H1 as (A1 & A2 & A3), H2 as (B1 & B2 & B3); apply unit_circle in A1, B1.
    + rewrite (between_out (7 / 2) ((y1 + y2) / 2) (9 / 2)) by lra. cbn [andb]. rewrite (between_out 1 ((x1 + x2) / 2) 2) by lra. rewrite andb_false_r.
      rewrite (between_in (1 / 2)) by lra. rewrite (between_in (- 1)) by lra. reflexivity.
    + rewrite (between_out (7 / 2) ((y1 + y2) / 2) (9 / 2)) by lra. cbn [andb]. rewrite (between_in 1 ((x1 + x2) / 2) 2) by lra.
      rewrite (between_in (1 / 2)) by lra. reflexivity.
    + rewrite (between_out (- 1) ((x1 + x2) / 2) 0) by lra. rewrite andb_false_r.
      rewrite (between_in (7 / 2)) by lra. rewrite (between_in 1) by lra. reflexivity.
    + rewrite (between_in (7 / 2)) by lra. rewrite (between_in (- 1)) by lra. reflexivity.
  - set (x := mf_centre f 0%nat). set (y := mf_centre f 1%nat). intros H.
    destruct H as [H|[H|[H|[H|[H|H]]]]].
    + rewrite (between_out (- 1) x 0), (between_out 1 x 2) by lra. rewrite !andb_false_r. reflexivity.
    + rewrite (between_out (- 1) x 0), (between_out 1 x 2) by lra. rewrite !andb_false_r. reflexivity.
    + rewrite (between_out (7 / 2) y (9 / 2)), (between_out (1 / 2) y (3 / 2)) by lra. reflexivity.
    + rewrite (between_out (7 / 2) y (9 / 2)), (between_out (1 / 2) y (3 / 2)) by lra. reflexivity.
    + rewrite (between_out (7 / 2) y (9 / 2)), (between_out (1 / 2) y (3 / 2)) by lra. reflexivity.
    + rewrite (between_out (- 1) x 0), (between_out 1 x 2) by lra. rewrite !andb_false_r. reflexivity.
Qed.
Print Assumptions C124_corners.
(** Violation: in three space dimensions also faces of the flat plates get the manifold of a cylinder: those of
    the plate z = 0 in the corners of the channel, beyond the rounded wall *)
Theorem C124_violation_plates : exists f, mf_boundary f = true /\ mf_centre f 2%nat = 0 /\
  1 < (mf_centre f 0%nat + 1) * (mf_centre f 0%nat + 1) + (mf_centre f 1%nat - 1 / 2) * (mf_centre f 1%nat - 1 / 2) /\
  mf_manifold f = 4294967295%N /\ mf_manifold (mark_face 3 f) = corner_manifold LowerLeft.
Proof.
  exists (MkMFace true (fun d => match d with 0%nat => - (1 / 10) | 1%nat => 14 / 10 | _ => 0 end) 5 4294967295). cbn [mf_boundary mf_centre mf_manifold].
  split; [reflexivity|]. split; [reflexivity|]. split; [lra|]. split; [reflexivity|]. rewrite mark_manifold by reflexivity. unfold new_manifold. cbn [mf_centre mf_manifold].
  rewrite (between_out (7 / 2) (14 / 10) (9 / 2)) by lra. rewrite (between_out 1 (- (1 / 10)) 2) by lra. rewrite (between_in (1 / 2)) by lra. rewrite (between_in (- 1)) by lra. reflexivity.
Qed.
Print Assumptions C124_violation_plates.

(** a face of the left inlet in three space dimensions *)
Definition inlet_face : mface := MkMFace true (fun d => match d with 0%nat => - 2 | 1%nat => 5 / 2 | _ => 1 / 16 end) 0 4294967295.
Definition inlet_line : mface := MkMFace true (fun d => match d with 0%nat => - 2 | 1%nat => 5 / 2 | _ => 0 end) 0 4294967295.
Example C124_nonvacuous : exists f, mf_boundary f = true /\ resolved 3 (mf_centre f) /\ given_by_mesh 3 f /\ expected 3 (mf_centre f) (Inlet 1).
Proof.
  exists (with_id 1 inlet_face). cbn [mf_boundary with_id inlet_face mf_centre]. split; [reflexivity|].
  assert (A : forall x a, 1 / 16 <= Rabs (x - a) -> apart x a) by (intros x a H; right; lra).
  assert (NP : ~ on_plate 3 (fun d => match d with 0%nat => - 2 | 1%nat => 5 / 2 | _ => 1 / 16 end)) by (intros [_ [H|H]]; cbn in H; lra).
  split; [|split].
  - unfold resolved. split; [left; reflexivity|]. split; [apply A; rewrite Rabs_left; lra|]. split; [apply A; rewrite Rabs_right; lra|]. split; [apply A; rewrite Rabs_left; lra|].
    intros _. split; apply A; [rewrite Rabs_right; lra|rewrite Rabs_left; lra].
  - right. split; [reflexivity|]. right. exists inlet_line. split; [reflexivity|]. split; [reflexivity|]. split; [reflexivity|]. split; [reflexivity|].
    rewrite mark_id by reflexivity. unfold new_id. cbn [Nat.eqb andb inlet_line mf_centre mf_id with_id].
    rewrite (close_far (5 / 2) 8) by (rewrite Rabs_left; lra). rewrite (close_far (5 / 2) (- (1 / 2))) by (rewrite Rabs_right; lra). rewrite (close_far (- 2) 3) by (rewrite Rabs_left; lra). rewrite close_at by reflexivity. reflexivity.
  - apply at_left; [exact NP|reflexivity|lra].
Qed.
Print Assumptions C124_nonvacuous.
Example C124_nonvacuous_corner : on_corner LowerLeft 0 (1 / 2) /\ on_corner LowerLeft (- 1) (3 / 2) /\ on_corner UpperRight 1 (9 / 2) /\ on_corner UpperRight 2 (7 / 2) /\
  inside_ball 2 (fun _ => 1 / 2) /\ outside_ball 2 (fun _ => 1).
Proof. unfold on_corner, inside_ball, outside_ball. cbn [sumn]. repeat split; lra. Qed.
Print Assumptions C124_nonvacuous_corner.
