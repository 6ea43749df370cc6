(** * C96: reference solutions of the verification programs solve the equations; C97: data of the example programs *)
From Coq Require Import Reals Arith Lra Lia FunctionalExtensionality.
From Coquelicot Require Import Coquelicot.
From Verif Require Import SumR Model_Examples.
Open Scope R_scope.

(** ** Specification: incompressible Navier-Stokes equations with density rho and viscosity mu, strong form with symmetric stress *)
Definition move (x : point) (k : nat) (s : R) : point := fun i => if Nat.eqb i k then s else x i.
Definition is_partial (f : point -> R) (k : nat) (x : point) (l : R) : Prop := is_derive (fun s => f (move x k s)) (x k) l.
(** u t x i: component i of the velocity, p t x: pressure.  ut: time derivative, G t x i k: derivative of component i in direction k,
    H t x i k l: its derivative in direction l, q t x i: derivatives of the pressure *)
Definition solves_navier_stokes (dim : nat) (rho mu : R) (u : R -> point -> nat -> R) (p : R -> point -> R) : Prop :=
  exists ut G H q,
    (forall t x i, (i < dim)%nat -> is_derive (fun s => u s x i) t (ut t x i)) /\
    (forall t x i k, (i < dim)%nat -> (k < dim)%nat -> is_partial (fun y => u t y i) k x (G t x i k)) /\
    (forall t x i k l, (i < dim)%nat -> (k < dim)%nat -> (l < dim)%nat -> is_partial (fun y => G t y i k) l x (H t x i k l)) /\
    (forall t x k, (k < dim)%nat -> is_partial (p t) k x (q t x k)) /\
    (forall t x i, (i < dim)%nat ->
       rho * (ut t x i + sumn dim (fun k => u t x k * G t x i k)) =
       - q t x i + sumn dim (fun k => mu * (H t x i k k + H t x k i k))) /\
    (forall t x, sumn dim (fun k => G t x k k) = 0).

(** ** Taylor vortices in two dimensions *)
Definition decay (k t : R) : R := exp (- k * t).
Lemma decay_derive k t : is_derive (decay k) t (- k * decay k t).
Proof. unfold decay. auto_derive; [exact I|]. ring. Qed.
Theorem C96_taylor : forall nu u p,
  (forall t x i, (i < 2)%nat -> beltrami_u 2 nu t x i = Some (u t x i)) -> (forall t x, beltrami_p 2 nu t x = Some (p t x)) ->
  solves_navier_stokes 2 1 nu u p.
Proof.
  intros nu u p Hu Hp. remember beltrami_a as a eqn:Ea. pose (E := decay (2 * nu * a * a)).
  assert (U0 : forall t x, u t x 0%nat = - a * cos (a * x 0%nat) * sin (a * x 1%nat) * E t).
  { intros. specialize (Hu t x 0%nat ltac:(lia)). cbn -[Rmult Rplus Ropp] in Hu. injection Hu as <-. rewrite <- Ea. unfold E, decay. f_equal. f_equal. ring. }
  assert (U1 : forall t x, u t x 1%nat = a * sin (a * x 0%nat) * cos (a * x 1%nat) * E t).
  { intros. specialize (Hu t x 1%nat ltac:(lia)). cbn -[Rmult Rplus Ropp] in Hu. injection Hu as <-. rewrite <- Ea. unfold E, decay. f_equal. f_equal. ring. }
  assert (P : forall t x, p t x = - a * a * (1 / 4) * (cos (2 * a * x 0%nat) + cos (2 * a * x 1%nat)) * (E t * E t)).
  { intros. specialize (Hp t x). cbn -[Rmult Rplus Ropp Rdiv] in Hp. injection Hp as <-. rewrite <- Ea. unfold E, decay. rewrite <- exp_plus. f_equal. f_equal. ring. }
  assert (DE : forall t, is_derive E t (- (2 * nu * a * a) * E t)) by (intros; apply decay_derive).
  clearbody E. clear Hu Hp Ea.
  exists (fun t x i => match i with 0%nat => 2 * nu * a * a * a * cos (a * x 0%nat) * sin (a * x 1%nat) * E t
     | _ => - (2 * nu * a * a) * a * sin (a * x 0%nat) * cos (a * x 1%nat) * E t end).
  exists (fun t x i k => match i, k with
    | 0%nat, 0%nat => a * a * sin (a * x 0%nat) * sin (a * x 1%nat) * E t | 0%nat, _ => - a * a * cos (a * x 0%nat) * cos (a * x 1%nat) * E t
    | _, 0%nat => a * a * cos (a * x 0%nat) * cos (a * x 1%nat) * E t | _, _ => - a * a * sin (a * x 0%nat) * sin (a * x 1%nat) * E t end).
  exists (fun t x i k l => match i, k, l with
    | 0%nat, 0%nat, 0%nat => a * a * a * cos (a * x 0%nat) * sin (a * x 1%nat) * E t
    | 0%nat, 0%nat, _ => a * a * a * sin (a * x 0%nat) * cos (a * x 1%nat) * E t
    | 0%nat, _, 0%nat => a * a * a * sin (a * x 0%nat) * cos (a * x 1%nat) * E t
    | 0%nat, _, _ => a * a * a * cos (a * x 0%nat) * sin (a * x 1%nat) * E t
    | _, 0%nat, 0%nat => - a * a * a * sin (a * x 0%nat) * cos (a * x 1%nat) * E t
    | _, 0%nat, _ => - a * a * a * cos (a * x 0%nat) * sin (a * x 1%nat) * E t
    | _, _, 0%nat => - a * a * a * cos (a * x 0%nat) * sin (a * x 1%nat) * E t
    | _, _, _ => - a * a * a * sin (a * x 0%nat) * cos (a * x 1%nat) * E t end).
  exists (fun t x k => a * a * a * sin (a * x k) * cos (a * x k) * (E t * E t)).
  refine (conj _ (conj _ (conj _ (conj _ (conj _ _))))).
  - intros t x i Hi. destruct i as [|[|i]]; [| |lia].
    + apply (is_derive_ext (fun s => - a * cos (a * x 0%nat) * sin (a * x 1%nat) * E s)); [intros; symmetry; apply U0|].
      evar_last; [apply is_derive_scal, DE|]. ring.
    + apply (is_derive_ext (fun s => a * sin (a * x 0%nat) * cos (a * x 1%nat) * E s)); [intros; symmetry; apply U1|].
      evar_last; [apply is_derive_scal, DE|]. ring.
  - intros t x i k Hi Hk. unfold is_partial. destruct i as [|[|i]]; [| |lia].
    + apply (is_derive_ext (fun s => - a * cos (a * move x k s 0%nat) * sin (a * move x k s 1%nat) * E t)); [intros; symmetry; apply U0|].
      destruct k as [|[|k]]; [| |lia]; unfold move; cbn [Nat.eqb]; (auto_derive; [exact I|ring]).
    + apply (is_derive_ext (fun s => a * sin (a * move x k s 0%nat) * cos (a * move x k s 1%nat) * E t)); [intros; symmetry; apply U1|].
      destruct k as [|[|k]]; [| |lia]; unfold move; cbn [Nat.eqb]; (auto_derive; [exact I|ring]).
  - intros t x i k l Hi Hk Hl. unfold is_partial, move.
    destruct i as [|[|i]]; [| |lia]; (destruct k as [|[|k]]; [| |lia]); (destruct l as [|[|l]]; [| |lia]); cbn [Nat.eqb]; (auto_derive; [exact I|ring]).
  - intros t x k Hk. unfold is_partial.
    apply (is_derive_ext (fun s => - a * a * (1 / 4) * (cos (2 * a * move x k s 0%nat) + cos (2 * a * move x k s 1%nat)) * (E t * E t))); [intros; symmetry; apply P|].
    destruct k as [|[|k]]; [| |lia]; unfold move; cbn [Nat.eqb]; (auto_derive; [exact I|]).
    + replace (sin (2 * a * x 0%nat)) with (2 * sin (a * x 0%nat) * cos (a * x 0%nat)) by (rewrite <- sin_2a; f_equal; ring). field.
    + replace (sin (2 * a * x 1%nat)) with (2 * sin (a * x 1%nat) * cos (a * x 1%nat)) by (rewrite <- sin_2a; f_equal; ring). field.
  - intros t x i Hi. pose proof (sin2_cos2 (a * x 0%nat)) as T0. pose proof (sin2_cos2 (a * x 1%nat)) as T1. unfold Rsqr in T0, T1.
    destruct i as [|[|i]]; [| |lia]; cbn [sumn]; rewrite U0, U1.
    + set (s0 := sin (a * x 0%nat)) in *. set (c0 := cos (a * x 0%nat)) in *. set (s1 := sin (a * x 1%nat)) in *. set (c1 := cos (a * x 1%nat)) in *. set (e := E t) in *.
      transitivity (2 * nu * a * a * a * c0 * s1 * e - a * a * a * s0 * c0 * (s1 * s1 + c1 * c1) * (e * e)); [ring|]. rewrite T1. ring.
    + set (s0 := sin (a * x 0%nat)) in *. set (c0 := cos (a * x 0%nat)) in *. set (s1 := sin (a * x 1%nat)) in *. set (c1 := cos (a * x 1%nat)) in *. set (e := E t) in *.
      transitivity (- (2 * nu * a * a) * a * s0 * c1 * e - a * a * a * s1 * c1 * (s0 * s0 + c0 * c0) * (e * e)); [ring|]. rewrite T0. ring.
  - intros t x. cbn [sumn]. ring.
Qed.
Print Assumptions C96_taylor.

Lemma is_derive_sumn n (f : nat -> R -> R) (l : nat -> R) x : (forall j, (j < n)%nat -> is_derive (f j) x (l j)) -> is_derive (fun s => sumn n (fun j => f j s)) x (sumn n l).
Proof.
  induction n as [|n IH]; intros H; cbn [sumn]; [apply (is_derive_const (0 : R))|].
  apply (is_derive_plus (fun s => sumn n (fun j => f j s)) (f n) x); [apply IH; intros; apply H; lia|apply H; lia].
Qed.
(** ** Beltrami flow in three dimensions: the components are one function of cyclically permuted coordinates *)
Section Beltrami.
Context (a d : R).
Definition bF (x y z : R) : R := - a * (exp (a * x) * sin (a * y + d * z) + exp (a * z) * cos (a * x + d * y)).
Definition bF1 (j : nat) (x y z : R) : R := match j with
  | 0%nat => - a * (a * exp (a * x) * sin (a * y + d * z) - a * exp (a * z) * sin (a * x + d * y))
  | 1%nat => - a * (a * exp (a * x) * cos (a * y + d * z) - d * exp (a * z) * sin (a * x + d * y))
  | _ => - a * (d * exp (a * x) * cos (a * y + d * z) + a * exp (a * z) * cos (a * x + d * y)) end.
Definition bF2 (j m : nat) (x y z : R) : R := match j, m with
  | 0%nat, 0%nat => - a * (a * a * exp (a * x) * sin (a * y + d * z) - a * a * exp (a * z) * cos (a * x + d * y))
  | 0%nat, 1%nat | 1%nat, 0%nat => - a * (a * a * exp (a * x) * cos (a * y + d * z) - a * d * exp (a * z) * cos (a * x + d * y))
  | 0%nat, _ | _, 0%nat => - a * (a * d * exp (a * x) * cos (a * y + d * z) - a * a * exp (a * z) * sin (a * x + d * y))
  | 1%nat, 1%nat => - a * (- a * a * exp (a * x) * sin (a * y + d * z) - d * d * exp (a * z) * cos (a * x + d * y))
  | 1%nat, _ | _, 1%nat => - a * (- a * d * exp (a * x) * sin (a * y + d * z) - a * d * exp (a * z) * sin (a * x + d * y))
  | _, _ => - a * (- d * d * exp (a * x) * sin (a * y + d * z) + a * a * exp (a * z) * cos (a * x + d * y)) end.
Definition next3 (i : nat) : nat := match i with 0%nat => 1%nat | 1%nat => 2%nat | _ => 0%nat end.
Definition cyc (f : R -> R -> R -> R) (x : point) (i : nat) : R := f (x i) (x (next3 i)) (x (next3 (next3 i))).
Definition rel3 (i k : nat) : nat := if Nat.eqb k i then 0%nat else if Nat.eqb k (next3 i) then 1%nat else 2%nat.
Lemma bF_partial i k x : (i < 3)%nat -> (k < 3)%nat -> is_partial (fun y => cyc bF y i) k x (cyc (bF1 (rel3 i k)) x i).
Proof.
  intros Hi Hk. unfold is_partial, cyc, move, bF.
  destruct i as [|[|[|i]]]; [| | |lia]; (destruct k as [|[|[|k]]]; [| | |lia]); cbn [Nat.eqb next3 rel3 bF1]; (auto_derive; [exact I|ring]).
Qed.
Lemma bF1_partial i k l x : (i < 3)%nat -> (k < 3)%nat -> (l < 3)%nat ->
  is_partial (fun y => cyc (bF1 (rel3 i k)) y i) l x (cyc (bF2 (rel3 i k) (rel3 i l)) x i).
Proof.
  intros Hi Hk Hl. unfold is_partial, cyc, move.
  destruct i as [|[|[|i]]]; [| | |lia]; (destruct k as [|[|[|k]]]; [| | |lia]); (destruct l as [|[|[|l]]]; [| | |lia]);
    cbn [Nat.eqb next3 rel3 bF1 bF2]; (auto_derive; [exact I|ring]).
Qed.
(** the velocity is an eigenfunction of the Laplacian, divergence free, and parallel to its curl *)
Lemma beltrami_laplace i x : (i < 3)%nat -> sumn 3 (fun k => cyc (bF2 (rel3 i k) (rel3 i k)) x i) = - (d * d) * cyc bF x i.
Proof. intros Hi. unfold cyc. destruct i as [|[|[|i]]]; [| | |lia]; cbn [sumn rel3 Nat.eqb next3 bF2]; unfold bF; ring. Qed.
Lemma beltrami_div x : sumn 3 (fun k => cyc (bF1 (rel3 k k)) x k) = 0.
Proof. unfold cyc. cbn [sumn rel3 Nat.eqb next3 bF1]. ring. Qed.
Lemma beltrami_grad_div i x : (i < 3)%nat -> sumn 3 (fun k => cyc (bF2 (rel3 k i) (rel3 k k)) x k) = 0.
Proof. intros Hi. unfold cyc. destruct i as [|[|[|i]]]; [| | |lia]; cbn [sumn rel3 Nat.eqb next3 bF2]; ring. Qed.
Lemma beltrami_lamb i x : (i < 3)%nat ->
  sumn 3 (fun k => cyc bF x k * cyc (bF1 (rel3 i k)) x i) = sumn 3 (fun k => cyc bF x k * cyc (bF1 (rel3 k i)) x k).
Proof. intros Hi. unfold cyc. destruct i as [|[|[|i]]]; [| | |lia]; cbn [sumn rel3 Nat.eqb next3 bF1]; unfold bF; ring. Qed.
(** the pressure of the code is minus half of the squared velocity *)
Lemma beltrami_pressure x :
  - a * a * (1 / 2) * (exp (2 * a * x 0%nat) + exp (2 * a * x 1%nat) + exp (2 * a * x 2%nat) +
     2 * sin (a * x 0%nat + d * x 1%nat) * cos (a * x 2%nat + d * x 0%nat) * exp (a * (x 1%nat + x 2%nat)) +
     2 * sin (a * x 1%nat + d * x 2%nat) * cos (a * x 0%nat + d * x 1%nat) * exp (a * (x 2%nat + x 0%nat)) +
     2 * sin (a * x 2%nat + d * x 0%nat) * cos (a * x 1%nat + d * x 2%nat) * exp (a * (x 0%nat + x 1%nat))) =
  - (1 / 2) * sumn 3 (fun k => cyc bF x k * cyc bF x k).
Proof.
  assert (D : forall y, exp (2 * a * y) = exp (a * y) * exp (a * y)) by (intros; rewrite <- exp_plus; f_equal; ring).
  assert (S : forall y z, exp (a * (y + z)) = exp (a * y) * exp (a * z)) by (intros; rewrite <- exp_plus; f_equal; ring).
  rewrite !D, !S. unfold cyc. cbn [sumn next3]. unfold bF.
  pose proof (sin2_cos2 (a * x 0%nat + d * x 1%nat)) as T0. pose proof (sin2_cos2 (a * x 1%nat + d * x 2%nat)) as T1. pose proof (sin2_cos2 (a * x 2%nat + d * x 0%nat)) as T2. unfold Rsqr in *.
  set (s0 := sin (a * x 0%nat + d * x 1%nat)) in *. set (c0 := cos (a * x 0%nat + d * x 1%nat)) in *.
  set (s1 := sin (a * x 1%nat + d * x 2%nat)) in *. set (c1 := cos (a * x 1%nat + d * x 2%nat)) in *.
  set (s2 := sin (a * x 2%nat + d * x 0%nat)) in *. set (c2 := cos (a * x 2%nat + d * x 0%nat)) in *.
  set (e0 := exp (a * x 0%nat)). set (e1 := exp (a * x 1%nat)). set (e2 := exp (a * x 2%nat)).
  transitivity (- a * a * (1 / 2) * (e0 * e0 * (s1 * s1 + c1 * c1) + e1 * e1 * (s2 * s2 + c2 * c2) + e2 * e2 * (s0 * s0 + c0 * c0) +
     2 * s0 * c2 * (e1 * e2) + 2 * s1 * c0 * (e2 * e0) + 2 * s2 * c1 * (e0 * e1))); [rewrite T0, T1, T2; ring|ring].
Qed.
End Beltrami.
Theorem C96_beltrami : forall nu u p,
  (forall t x i, (i < 3)%nat -> beltrami_u 3 nu t x i = Some (u t x i)) -> (forall t x, beltrami_p 3 nu t x = Some (p t x)) ->
  solves_navier_stokes 3 1 nu u p.
Proof.
  intros nu u p Hu Hp. remember beltrami_a as a eqn:Ea. remember (2 * a) as d eqn:Ed. pose (E := decay (nu * d * d)).
  assert (U : forall t x i, (i < 3)%nat -> u t x i = E t * cyc (bF a d) x i).
  { intros t x i Hi. pose proof (Hu t x i Hi) as V. destruct i as [|[|[|i]]]; [| | |lia]; cbn -[Rmult Rplus Ropp beltrami_d] in V; injection V as <-;
      change (beltrami_d 3) with (2 * beltrami_a); rewrite <- Ea, <- Ed; unfold cyc, bF, E, decay; cbn [next3]; rewrite Rmult_comm; f_equal; f_equal; ring. }
  assert (P : forall t x, p t x = - (1 / 2) * (E t * E t) * sumn 3 (fun k => cyc (bF a d) x k * cyc (bF a d) x k)).
  { intros t x. specialize (Hp t x). cbn -[Rmult Rplus Ropp Rdiv beltrami_dp sumn] in Hp. injection Hp as <-. assert (Ep : beltrami_dp = d) by (unfold beltrami_dp; rewrite <- Ea; symmetry; exact Ed). rewrite Ep, <- Ea.
    replace (exp (- 2 * nu * d * d * t)) with (E t * E t) by (unfold E, decay; rewrite <- exp_plus; f_equal; ring).
    rewrite beltrami_pressure. ring. }
  assert (DE : forall t, is_derive E t (- (nu * d * d) * E t)) by (intros; apply decay_derive).
  clearbody E. clear Hu Hp Ea Ed.
  exists (fun t x i => - (nu * d * d) * E t * cyc (bF a d) x i).
  exists (fun t x i k => E t * cyc (bF1 a d (rel3 i k)) x i).
  exists (fun t x i k l => E t * cyc (bF2 a d (rel3 i k) (rel3 i l)) x i).
  exists (fun t x k => - (E t * E t) * sumn 3 (fun i => cyc (bF a d) x i * cyc (bF1 a d (rel3 i k)) x i)).
  refine (conj _ (conj _ (conj _ (conj _ (conj _ _))))).
  - intros t x i Hi. apply (is_derive_ext (fun s => cyc (bF a d) x i * E s)); [intros; symmetry; rewrite U by exact Hi; apply Rmult_comm|].
    evar_last; [apply is_derive_scal, DE|]. ring.
  - intros t x i k Hi Hk. unfold is_partial. apply (is_derive_ext (fun s => E t * cyc (bF a d) (move x k s) i)); [intros; symmetry; apply U; exact Hi|].
    apply is_derive_scal. apply bF_partial; assumption.
  - intros t x i k l Hi Hk Hl. unfold is_partial. apply is_derive_scal. apply (bF1_partial a d i k l x); assumption.
  - intros t x k Hk. unfold is_partial. apply (is_derive_ext (fun s => - (1 / 2) * (E t * E t) * sumn 3 (fun j => cyc (bF a d) (move x k s) j * cyc (bF a d) (move x k s) j))); [intros; symmetry; apply P|].
    assert (M : forall j, (j < 3)%nat -> is_derive (fun s => cyc (bF a d) (move x k s) j * cyc (bF a d) (move x k s) j) (x k) (2 * (cyc (bF a d) x j * cyc (bF1 a d (rel3 j k)) x j))).
    { intros j Hj. evar_last; [apply (is_derive_mult (fun s => cyc (bF a d) (move x k s) j)); [apply bF_partial; assumption|apply bF_partial; assumption|intros; apply Rmult_comm]|].
      assert (MX : move x k (x k) = x) by (apply functional_extensionality; intros i; unfold move; destruct (Nat.eqb_spec i k) as [->|]; reflexivity).
      rewrite !MX. set (Y := cyc (bF a d) x j). set (Z := cyc (bF1 a d (rel3 j k)) x j). change (Z * Y + Y * Z = 2 * (Y * Z)). ring. }
    evar_last; [apply is_derive_scal, (is_derive_sumn 3 (fun j s => cyc (bF a d) (move x k s) j * cyc (bF a d) (move x k s) j) (fun j => 2 * (cyc (bF a d) x j * cyc (bF1 a d (rel3 j k)) x j))), M|].
    rewrite sumn_scal. field.
  - intros t x i Hi. rewrite (sumn_ext 3 _ (fun k => E t * E t * (cyc (bF a d) x k * cyc (bF1 a d (rel3 i k)) x i))) by (intros; rewrite U by assumption; ring).
    rewrite sumn_scal, beltrami_lamb by exact Hi.
    rewrite (sumn_ext 3 (fun k => nu * _) (fun k => nu * E t * (cyc (bF2 a d (rel3 i k) (rel3 i k)) x i) + nu * E t * (cyc (bF2 a d (rel3 k i) (rel3 k k)) x k))) by (intros; ring).
    rewrite sumn_plus, !sumn_scal, beltrami_laplace, beltrami_grad_div by exact Hi. ring.
  - intros t x. rewrite sumn_scal, beltrami_div. ring.
Qed.
Print Assumptions C96_beltrami.

(** ** Start values: the velocity is created with viscosity zero, which is invisible at time zero *)
Theorem C96_initial : forall dim nu x c,
  beltrami_initial_u dim nu x c = beltrami_u dim nu 0 x c /\ beltrami_initial_p dim nu x = beltrami_p dim nu 0 x.
Proof.
  intros. split; [|reflexivity]. unfold beltrami_initial_u, beltrami_u.
  destruct dim as [|[|[|[|dim]]]]; try reflexivity; (destruct c as [|[|[|c]]]; try reflexivity); cbv zeta; do 3 f_equal; ring.
Qed.
(** ** the solutions are those of density one: with another density the velocity and pressure do not solve the equations *)
Lemma two_densities dim rho1 rho2 mu u p : solves_navier_stokes dim rho1 mu u p -> solves_navier_stokes dim rho2 mu u p ->
  forall t x i ut G, (i < dim)%nat -> is_derive (fun s => u s x i) t ut -> (forall k, (k < dim)%nat -> is_partial (fun y => u t y i) k x (G k)) ->
  (rho1 - rho2) * (ut + sumn dim (fun k => u t x k * G k)) = 0.
Proof.
  intros (ut1 & G1 & H1 & q1 & A1 & B1 & C1 & D1 & E1 & _) (ut2 & G2 & H2 & q2 & A2 & B2 & C2 & D2 & E2 & _) t x i ut G Hi Hut HG.
  assert (GG : forall y i k, (i < dim)%nat -> (k < dim)%nat -> G1 t y i k = G2 t y i k).
  { intros y j k Hj Hk. rewrite <- (is_derive_unique _ _ _ (B1 t y j k Hj Hk)). apply is_derive_unique, B2; assumption. }
  assert (HH : forall i k l, (i < dim)%nat -> (k < dim)%nat -> (l < dim)%nat -> H1 t x i k l = H2 t x i k l).
  { intros j k l Hj Hk Hl. rewrite <- (is_derive_unique _ _ _ (C1 t x j k l Hj Hk Hl)).
    apply is_derive_unique. apply (is_derive_ext (fun s => G2 t (move x l s) j k)); [intros; symmetry; apply GG; assumption|]. apply C2; assumption. }
  assert (QQ : q1 t x i = q2 t x i). { rewrite <- (is_derive_unique _ _ _ (D1 t x i Hi)). apply is_derive_unique, D2, Hi. }
  assert (U1 : ut1 t x i = ut) by (rewrite <- (is_derive_unique _ _ _ (A1 t x i Hi)); apply is_derive_unique, Hut).
  assert (U2 : ut2 t x i = ut) by (rewrite <- (is_derive_unique _ _ _ (A2 t x i Hi)); apply is_derive_unique, Hut).
  assert (S1 : sumn dim (fun k => u t x k * G1 t x i k) = sumn dim (fun k => u t x k * G k)).
  { apply sumn_ext. intros k Hk. f_equal. rewrite <- (is_derive_unique _ _ _ (B1 t x i k Hi Hk)). apply is_derive_unique, HG, Hk. }
  assert (S2 : sumn dim (fun k => u t x k * G2 t x i k) = sumn dim (fun k => u t x k * G k)).
  { apply sumn_ext. intros k Hk. f_equal. rewrite <- (is_derive_unique _ _ _ (B2 t x i k Hi Hk)). apply is_derive_unique, HG, Hk. }
  specialize (E1 t x i Hi). specialize (E2 t x i Hi). rewrite U1, S1 in E1. rewrite U2, S2 in E2.
  assert (V : sumn dim (fun k => mu * (H1 t x i k k + H1 t x k i k)) = sumn dim (fun k => mu * (H2 t x i k k + H2 t x k i k))) by (apply sumn_ext; intros k Hk; rewrite !HH by assumption; reflexivity).
  rewrite V, QQ in E1. rewrite <- E2 in E1. lra.
Qed.
Theorem C96_violation_density : forall nu rho u p, nu <> 0 -> rho <> 1 ->
  (forall t x i, (i < 2)%nat -> beltrami_u 2 nu t x i = Some (u t x i)) -> (forall t x, beltrami_p 2 nu t x = Some (p t x)) ->
  ~ solves_navier_stokes 2 rho nu u p.
Proof.
  intros nu rho u p Hnu Hrho Hu Hp H. pose proof (C96_taylor nu u p Hu Hp) as H1. set (a := beltrami_a).
  assert (U0 : forall t x, u t x 0%nat = - a * cos (a * x 0%nat) * sin (a * x 1%nat) * exp (- 2 * nu * a * a * t)).
  { intros. specialize (Hu t x 0%nat ltac:(lia)). cbn -[Rmult Rplus Ropp] in Hu. injection Hu as <-. reflexivity. }
  assert (U1 : forall t x, u t x 1%nat = a * sin (a * x 0%nat) * cos (a * x 1%nat) * exp (- 2 * nu * a * a * t)).
  { intros. specialize (Hu t x 1%nat ltac:(lia)). cbn -[Rmult Rplus Ropp] in Hu. injection Hu as <-. reflexivity. }
  pose (x := fun i : nat => match i with 0%nat => 0 | _ => 2 end : R).
  assert (Pa : a <> 0) by (unfold a, beltrami_a; pose proof PI_RGT_0; lra).
  assert (S1 : sin (a * 2) = 1) by (rewrite <- sin_PI2; f_equal; unfold a, beltrami_a; field).
  assert (C1 : cos (a * 2) = 0) by (rewrite <- cos_PI2; f_equal; unfold a, beltrami_a; field).
  assert (T : (rho - 1) * (2 * nu * a * a * a + sumn 2 (fun k => u 0 x k * (fun k => 0) k)) = 0).
  { apply (two_densities 2 rho 1 nu u p H H1 0 x 0%nat); [lia| |].
    - apply (is_derive_ext (fun s => - a * cos (a * x 0%nat) * sin (a * x 1%nat) * exp (- 2 * nu * a * a * s))); [intros; symmetry; apply U0|].
      auto_derive; [exact I|]. cbn [x]. rewrite S1, Rmult_0_r, cos_0, Rmult_0_r, exp_0. ring.
    - intros k Hk. unfold is_partial.
      apply (is_derive_ext (fun s => - a * cos (a * move x k s 0%nat) * sin (a * move x k s 1%nat) * exp (- 2 * nu * a * a * 0))); [intros; symmetry; apply U0|].
      destruct k as [|[|k]]; [| |lia]; unfold move; cbn [Nat.eqb]; (auto_derive; [exact I|]); cbn [x].
      + rewrite Rmult_0_r, sin_0. ring.
      + rewrite C1. ring. }
  rewrite sumn_zero, Rplus_0_r in T by (intros; ring).
  apply Rmult_integral in T. destruct T as [T|T]; [lra|].
  repeat (apply Rmult_integral in T; destruct T as [T|T]; try lra; try contradiction).
Qed.
Print Assumptions C96_violation_density.

(** ** Channel flow of tests/poiseuille.cc: solution for every density and every viscosity but zero, with the boundary conditions of the program *)
Theorem C96_poiseuille : forall rho nu, nu <> 0 ->
  solves_navier_stokes 2 rho nu (fun _ => poiseuille_u nu) (fun _ => poiseuille_p) /\
  (forall x c, x 1%nat = -1 -> poiseuille_u nu x c = 0) /\
  (** symmetry plane: no flow through it and no shear stress *)
  (forall x, x 1%nat = 0 -> poiseuille_u nu x 1%nat = 0 /\ is_partial (fun y => poiseuille_u nu y 0%nat) 1 x 0 /\ is_partial (fun y => poiseuille_u nu y 1%nat) 0 x 0) /\
  (** open ends: no tangential velocity, normal stress equal to minus the pressure *)
  (forall x, poiseuille_u nu x 1%nat = 0 /\ is_partial (fun y => poiseuille_u nu y 0%nat) 0 x 0 /\ (x 0%nat = 2 -> poiseuille_p x = 0) /\ (x 0%nat = -2 -> poiseuille_p x = 4)).
Proof.
  intros rho nu Hnu. refine (conj _ (conj _ (conj _ _))).
  - exists (fun _ _ _ => 0). exists (fun _ x i k => match i, k with 0%nat, 1%nat => - x 1%nat / nu | _, _ => 0 end).
    exists (fun _ x i k l => match i, k, l with 0%nat, 1%nat, 1%nat => - 1 / nu | _, _, _ => 0 end).
    exists (fun _ x k => match k with 0%nat => -1 | _ => 0 end).
    refine (conj _ (conj _ (conj _ (conj _ (conj _ _))))).
    + intros t x i Hi. apply (is_derive_const (poiseuille_u nu x i)).
    + intros t x i k Hi Hk. unfold is_partial, poiseuille_u, move. destruct i as [|[|i]]; [| |lia]; (destruct k as [|[|k]]; [| |lia]); cbn [Nat.eqb]; (auto_derive; [exact I|]); try field; exact Hnu.
    + intros t x i k l Hi Hk Hl. unfold is_partial, move. destruct i as [|[|i]]; [| |lia]; (destruct k as [|[|k]]; [| |lia]); (destruct l as [|[|l]]; [| |lia]); cbn [Nat.eqb]; (auto_derive; [exact I|]); try field; try exact Hnu.
    + intros t x k Hk. unfold is_partial, move, poiseuille_p. destruct k as [|[|k]]; [| |lia]; cbn [Nat.eqb]; (auto_derive; [exact I|ring]).
    + intros t x i Hi. unfold poiseuille_u. destruct i as [|[|i]]; [| |lia]; cbn [sumn]; field; exact Hnu.
    + intros t x. cbn [sumn]. ring.
  - intros x c H. unfold poiseuille_u. destruct c; [rewrite H; ring|reflexivity].
  - intros x H. refine (conj eq_refl (conj _ _)).
    + unfold is_partial, poiseuille_u, move. cbn [Nat.eqb]. auto_derive; [exact I|]. rewrite H. ring.
    + apply (is_derive_const (0 : R)).
  - intros x. refine (conj eq_refl (conj _ (conj _ _))).
    + unfold is_partial, poiseuille_u, move. cbn [Nat.eqb]. apply (is_derive_const (1 / 2 / nu * (1 - x 1%nat) * (1 + x 1%nat))).
    + intros H. unfold poiseuille_p. rewrite H. ring.
    + intros H. unfold poiseuille_p. rewrite H. ring.
Qed.
Print Assumptions C96_poiseuille.

(** ** Corner flow of tests/phasefield_poiseuille.cc *)
(** Specification: Stokes equations in polar coordinates for velocity (vr, vt) and pressure p as functions of radius and angle *)
Definition polar_stokes (mu : R) (vr vt p : R -> R -> R) : Prop :=
  exists vr_r vr_rr vr_t vr_tt vt_r vt_rr vt_t vt_tt p_r p_t : R -> R -> R,
    (forall r t, 0 < r ->
       is_derive (fun s => vr s t) r (vr_r r t) /\ is_derive (fun s => vr_r s t) r (vr_rr r t) /\
       is_derive (fun s => vr r s) t (vr_t r t) /\ is_derive (fun s => vr_t r s) t (vr_tt r t) /\
       is_derive (fun s => vt s t) r (vt_r r t) /\ is_derive (fun s => vt_r s t) r (vt_rr r t) /\
       is_derive (fun s => vt r s) t (vt_t r t) /\ is_derive (fun s => vt_t r s) t (vt_tt r t) /\
       is_derive (fun s => p s t) r (p_r r t) /\ is_derive (fun s => p r s) t (p_t r t)) /\
    (forall r t, 0 < r ->
       p_r r t = mu * (vr_rr r t + vr_r r t / r + vr_tt r t / (r * r) - vr r t / (r * r) - 2 / (r * r) * vt_t r t) /\
       p_t r t / r = mu * (vt_rr r t + vt_r r t / r + vt_tt r t / (r * r) - vt r t / (r * r) + 2 / (r * r) * vr_t r t) /\
       vr_r r t + vr r t / r + vt_t r t / r = 0).
Theorem C96_wedge_stokes : forall mu w, exists p, polar_stokes mu (fun _ => v_radial w) (fun _ => v_angular w) p.
Proof.
  intros mu [a b c d]. unfold v_radial, v_angular. cbn [wa wb wc wd].
  exists (fun r t => mu * (-2 * c * sin t - 2 * d * cos t) / r * 1).
  exists (fun _ _ => 0). exists (fun _ _ => 0).
  exists (fun _ t => (a + t * c + d) * sin t - c * cos t + d * sin t + (b + t * d - c) * cos t).
  exists (fun _ t => (a + t * c + d) * cos t + 2 * c * sin t + 2 * d * cos t - (b + t * d - c) * sin t).
  exists (fun _ _ => 0). exists (fun _ _ => 0).
  exists (fun _ t => c * sin t + (a + t * c) * cos t + d * cos t - (b + t * d) * sin t).
  exists (fun _ t => 2 * c * cos t - (a + t * c) * sin t - 2 * d * sin t - (b + t * d) * cos t).
  exists (fun r t => - mu * (-2 * c * sin t - 2 * d * cos t) / (r * r)).
  exists (fun r t => mu * (-2 * c * cos t + 2 * d * sin t) / r).
  split.
  - intros r t Hr. cbv beta. refine (conj _ (conj _ (conj _ (conj _ (conj _ (conj _ (conj _ (conj _ (conj _ _))))))))); (auto_derive; [try exact I; try lra|]); try ring; field; lra.
  - intros r t Hr. repeat split; field; lra.
Qed.
Print Assumptions C96_wedge_stokes.
Lemma wedge_denominator_neg ratio phi : 0 <= ratio -> 0 < phi < PI -> wedge_denominator ratio phi < 0.
Proof.
  intros Hr [H0 H1]. unfold wedge_denominator. set (C := cos phi). set (S := sin phi).
  assert (S0 : 0 < S) by (apply sin_gt_0; assumption).
  assert (S1 : S < phi) by (apply sin_lt_x; assumption).
  assert (S2 : S < PI - phi) by (unfold S; rewrite <- sin_PI_x; apply sin_lt_x; lra).
  assert (C1 : -1 <= C <= 1) by apply COS_bound.
  assert (SC : - S <= S * C <= S) by (split; nra).
  assert (X1 : 0 < (phi - PI) * (phi - PI) - S * S) by nra.
  assert (X2 : 0 < phi * phi - S * S) by nra.
  assert (Y1 : (S * C - phi) * ((phi - PI) * (phi - PI) - S * S) < 0) by (apply Ropp_lt_cancel; rewrite Ropp_0, Ropp_mult_distr_l; apply Rmult_lt_0_compat; lra).
  assert (Y2 : (phi - PI - S * C) * (phi * phi - S * S) < 0) by (apply Ropp_lt_cancel; rewrite Ropp_0, Ropp_mult_distr_l; apply Rmult_lt_0_compat; lra).
  assert (Y3 : ratio * (phi - PI - S * C) * (phi * phi - S * S) <= 0) by (rewrite Rmult_assoc; nra).
  lra.
Qed.
(** the two fluids: no flow through wall and interface, the wall moves with velocity one (in direction of the axis with angle zero),
    the velocity and the shear stress are continuous over the interface *)
Theorem C96_wedge : forall mu_A mu_B phi ratio, 0 <= mu_A -> 0 < mu_B -> ratio = mu_A / mu_B -> 0 < phi < PI ->
  v_angular (wedge_A ratio phi) PI = 0 /\ v_angular (wedge_B ratio phi) 0 = 0 /\
  v_radial (wedge_A ratio phi) PI = -1 /\ v_radial (wedge_B ratio phi) 0 = 1 /\
  v_angular (wedge_A ratio phi) phi = 0 /\ v_angular (wedge_B ratio phi) phi = 0 /\
  v_radial (wedge_A ratio phi) phi = v_radial (wedge_B ratio phi) phi /\
  (forall s_A s_B, is_derive (v_radial (wedge_A ratio phi)) phi s_A -> is_derive (v_radial (wedge_B ratio phi)) phi s_B ->
     mu_A * (s_A - v_angular (wedge_A ratio phi) phi) = mu_B * (s_B - v_angular (wedge_B ratio phi) phi)).
Proof.
  intros mu_A mu_B phi ratio HA HB Er Hphi.
  assert (Hr : 0 <= ratio) by (subst; apply Rle_mult_inv_pos; assumption).
  pose proof (wedge_denominator_neg ratio phi Hr Hphi) as HD.
  assert (EmA : mu_A = ratio * mu_B) by (subst; field; lra). clear Er.
  unfold v_angular, v_radial. 
  assert (CC : cos phi * cos phi = 1 - sin phi * sin phi) by (pose proof (sin2_cos2 phi) as T; unfold Rsqr in T; lra).
  set (wA := wedge_A ratio phi). set (wB := wedge_B ratio phi).
  assert (AA : (wa wA + phi * wc wA) * sin phi + (wb wA + phi * wd wA) * cos phi = 0).
  { unfold wA, wedge_A. cbn [wa wb wc wd]. revert HD. unfold wedge_denominator. set (C := cos phi) in *. set (S := sin phi) in *. clearbody C S. intros HD.
    field [CC]. lra. }
  assert (AB : (wa wB + phi * wc wB) * sin phi + (wb wB + phi * wd wB) * cos phi = 0).
  { unfold wB, wedge_B. cbn [wa wb wc wd]. revert HD. unfold wedge_denominator. set (C := cos phi) in *. set (S := sin phi) in *. clearbody C S. intros HD.
    field [CC]. lra. }
  refine (conj _ (conj _ (conj _ (conj _ (conj AA (conj AB (conj _ _))))))).
  - rewrite sin_PI, cos_PI. unfold wA, wedge_A. cbn [wa wb wc wd]. ring.
  - rewrite sin_0, cos_0. unfold wB, wedge_B. cbn [wa wb wc wd]. ring.
  - rewrite sin_PI, cos_PI. unfold wA, wedge_A. cbn [wa wb wc wd]. ring.
  - rewrite sin_0, cos_0. unfold wB, wedge_B. cbn [wa wb wc wd]. ring.
  - unfold wA, wB, wedge_A, wedge_B. cbn [wa wb wc wd]. revert HD. unfold wedge_denominator. clear AA AB. set (C := cos phi) in *. set (S := sin phi) in *. clearbody C S. intros HD.
    field [CC]. lra.
  - intros s_A s_B DA DB. rewrite AA, AB.
    assert (DV : forall w, is_derive (fun theta => - ((wa w + theta * wc w + wd w) * cos theta - (wb w + theta * wd w - wc w) * sin theta)) phi
       ((wa w + phi * wc w) * sin phi + (wb w + phi * wd w) * cos phi - 2 * (wc w * cos phi - wd w * sin phi))) by (intros w; auto_derive; [exact I|ring]).
    assert (EA : s_A = (wa wA + phi * wc wA) * sin phi + (wb wA + phi * wd wA) * cos phi - 2 * (wc wA * cos phi - wd wA * sin phi)) by (rewrite <- (is_derive_unique _ _ _ DA); apply is_derive_unique; exact (DV wA)).
    assert (EB : s_B = (wa wB + phi * wc wB) * sin phi + (wb wB + phi * wd wB) * cos phi - 2 * (wc wB * cos phi - wd wB * sin phi)) by (rewrite <- (is_derive_unique _ _ _ DB); apply is_derive_unique; exact (DV wB)).
    rewrite EA, EB, AA, AB, EmA.
    unfold wA, wB, wedge_A, wedge_B. cbn [wa wb wc wd]. revert HD. unfold wedge_denominator. clear AA AB DA DB DV EA EB. set (C := cos phi) in *. set (S := sin phi) in *. clearbody C S. intros HD.
    field [CC]. lra.
Qed.
Print Assumptions C96_wedge.
(** *** hyperbolic tangent *)
Lemma tanh_exp x : tanh x = 1 - 2 / (exp (2 * x) + 1).
Proof.
  unfold tanh, sinh, cosh. replace (2 * x) with (x + x) by ring. rewrite exp_plus, exp_Ropp. pose proof (exp_pos x) as P. field. repeat split; try nra. 
Qed.
Lemma tanh_increasing x y : x < y -> tanh x < tanh y.
Proof.
  intros H. rewrite !tanh_exp. assert (E : exp (2 * x) < exp (2 * y)) by (apply exp_increasing; lra). pose proof (exp_pos (2 * x)).
  enough (/ (exp (2 * y) + 1) < / (exp (2 * x) + 1)) by (unfold Rdiv; lra). apply Rinv_lt_contravar; nra.
Qed.
Lemma tanh_zero : tanh 0 = 0.
Proof. rewrite tanh_exp, Rmult_0_r, exp_0. field. Qed.
Lemma tanh_odd x : tanh (- x) = - tanh x.
Proof. unfold tanh, sinh, cosh. rewrite Ropp_involutive. pose proof (exp_pos x). pose proof (exp_pos (- x)). field. lra. Qed.
Lemma tanh_bound x : -1 < tanh x < 1.
Proof.
  assert (U : forall y, tanh y < 1) by (intros y; rewrite tanh_exp; pose proof (exp_pos (2 * y)); enough (0 < 2 / (exp (2 * y) + 1)) by lra; apply Rdiv_lt_0_compat; lra).
  split; [|apply U]. specialize (U (- x)). rewrite tanh_odd in U. lra.
Qed.
(** *** the velocity that is written for comparison *)
Theorem C96_similarity : forall V ratio phi shift scaling x, 0 < scaling -> 0 < phi < PI ->
  let X := (x 0%nat - shift) / scaling in
  let Y := x 1%nat / scaling + 1 / 2 in
  let u := similarity_velocity V ratio phi shift scaling x in
  (Y = 0 -> u 0%nat = V /\ u 1%nat = 0) /\
  (0 < Y -> exists theta r, 0 < theta < PI /\ 0 < r /\ r * cos theta = X /\ r * sin theta = Y /\
     (phi < theta -> u 0%nat * cos theta + u 1%nat * sin theta = V * v_radial (wedge_A ratio phi) theta /\
                     - u 0%nat * sin theta + u 1%nat * cos theta = V * v_angular (wedge_A ratio phi) theta) /\
     (theta <= phi -> u 0%nat * cos theta + u 1%nat * sin theta = V * v_radial (wedge_B ratio phi) theta /\
                      - u 0%nat * sin theta + u 1%nat * cos theta = V * v_angular (wedge_B ratio phi) theta)).
Proof.
  intros V ratio phi shift scaling x Hs Hphi X Y u. split.
  - intros HY. unfold u, similarity_velocity. fold Y. unfold wedge_theta. fold Y.
    destruct (Req_EM_T Y 0) as [_|N]; [|contradiction].
    destruct (Rlt_dec (x 0%nat / scaling - shift / scaling) 0).
    + destruct (Rlt_dec phi PI); [|lra]. unfold v_radial, v_angular. rewrite sin_PI, cos_PI. unfold wedge_A. cbn [wa wb wc wd]. split; ring.
    + destruct (Rlt_dec phi 0); [lra|]. unfold v_radial, v_angular. rewrite sin_0, cos_0. unfold wedge_B. cbn [wa wb wc wd]. split; ring.
  - intros HY. set (z := (shift / scaling - x 0%nat / scaling) / Y). set (theta := atan z + PI / 2).
    pose proof (sqrt_lt_R0 (1 + Rsqr z) ltac:(pose proof (Rle_0_sqr z); lra)) as Hq.
    exists theta, (Y * sqrt (1 + Rsqr z)).
    pose proof (atan_bound z) as Bz.
    assert (Ct : cos theta = - (z / sqrt (1 + z²))) by (unfold theta; rewrite cos_plus, cos_PI2, sin_PI2, sin_atan; ring).
    assert (St : sin theta = 1 / sqrt (1 + z²)) by (unfold theta; rewrite sin_plus, cos_PI2, sin_PI2, cos_atan; ring).
    assert (T : wedge_theta (shift / scaling) (x 0%nat / scaling) (x 1%nat / scaling) = theta).
    { unfold wedge_theta. fold Y. destruct (Req_EM_T Y 0); [lra|reflexivity]. }
    refine (conj _ (conj _ (conj _ (conj _ (conj _ _))))).
    + unfold theta. lra.
    + apply Rmult_lt_0_compat; assumption.
    + rewrite Ct. unfold X. unfold z at 2. field. repeat split; lra.
    + rewrite St. field. lra.
    + intros H. pose proof (sin2_cos2 theta) as SC. unfold Rsqr in SC. clear Ct St Bz. unfold u, similarity_velocity. rewrite T. cbv zeta. destruct (Rlt_dec phi theta) as [_|N]; [|lra].
      set (vr := v_radial _ _). set (va := v_angular _ _). set (c := cos theta) in *. set (s := sin theta) in *. split.
      * transitivity (V * vr * (s * s + c * c)); [ring|rewrite SC; ring].
      * transitivity (V * va * (s * s + c * c)); [ring|rewrite SC; ring].
    + intros H. pose proof (sin2_cos2 theta) as SC. unfold Rsqr in SC. clear Ct St Bz. unfold u, similarity_velocity. rewrite T. cbv zeta. destruct (Rlt_dec phi theta) as [N|_]; [lra|].
      set (vr := v_radial _ _). set (va := v_angular _ _). set (c := cos theta) in *. set (s := sin theta) in *. split.
      * transitivity (V * vr * (s * s + c * c)); [ring|rewrite SC; ring].
      * transitivity (V * va * (s * s + c * c)); [ring|rewrite SC; ring].
Qed.
Print Assumptions C96_similarity.
(** the run compares with the flow of its own two fluids: the fluid left of the interface (A) has the phase field near -1 and its viscosity *)
Theorem C96_fluids : forall epsilon center viscosity diff V angle position, 0 < epsilon ->
  (forall x, (x 0%nat < center -> -1 < initial_phase epsilon center x < 0) /\ (center < x 0%nat -> 0 < initial_phase epsilon center x < 1)) /\
  similarity_of_run V viscosity diff angle position =
    similarity_velocity (- V) (viscosity_of_phase viscosity diff (-1) / viscosity_of_phase viscosity diff 1) (PI * angle / 180) position 2 /\
  (forall s, 0 <= s <= 1 -> viscosity_of_phase viscosity diff (2 * s - 1) = (1 - s) * viscosity + s * (viscosity + diff)).
Proof.
  intros epsilon center viscosity diff V angle position He. split; [|split].
  - intros x. unfold initial_phase, initial_ls. pose proof (tanh_bound ((- x 0%nat + center) / epsilon)) as B. split; intros H.
    + enough (0 < tanh ((- x 0%nat + center) / epsilon)) by lra. rewrite <- tanh_zero at 1. apply tanh_increasing. apply Rdiv_lt_0_compat; lra.
    + enough (tanh ((- x 0%nat + center) / epsilon) < 0) by lra. rewrite <- tanh_zero at 1. apply tanh_increasing.
      apply Ropp_lt_cancel. rewrite Ropp_0. replace (- ((- x 0%nat + center) / epsilon)) with ((x 0%nat - center) / epsilon) by (field; lra). apply Rdiv_lt_0_compat; lra.
  - unfold similarity_of_run, viscosity_of_phase. f_equal. f_equal.
    + rewrite Rmax_left, Rmin_right by lra. ring.
    + f_equal. rewrite Rmax_right, Rmin_left by lra. ring.
  - intros s Hs. unfold viscosity_of_phase. replace (1 / 2 * (2 * s - 1 + 1)) with s by field. rewrite Rmax_right, Rmin_right by lra. ring.
Qed.
Print Assumptions C96_fluids.

(** ** C97: data of the example programs *)
(** *** inflow profile of the flow past a cylinder: zero at the walls, positive inside, maximum at the centre, mean value one *)
Lemma parabola_RInt (H : R) : 0 < H -> is_RInt (fun y => y * (H - y)) 0 H (H * H * H / 6).
Proof.
  intros P. evar_last; [apply (is_RInt_derive (fun y => H * y * y / 2 - y * y * y / 3) (fun y => y * (H - y)))|].
  - intros x _. auto_derive; [exact I|field].
  - intros x _. apply (ex_derive_continuous (V:=R_NormedModule)). auto_derive. exact I.
  - change (H * H * H / 2 - H * H * H / 3 - (H * 0 * 0 / 2 - 0 * 0 * 0 / 3) = H * H * H / 6). field.
Qed.
Definition in_channel (dim : nat) (x : point) : Prop :=
  0 < x 1%nat < channel_height /\ (dim = 3%nat -> 0 < x 2%nat < channel_height).
Definition on_wall (dim : nat) (x : point) : Prop :=
  x 1%nat = 0 \/ x 1%nat = channel_height \/ (dim = 3%nat /\ (x 2%nat = 0 \/ x 2%nat = channel_height)).
Lemma inflow_2 t x : inflow_velocity 2 false t x 0%nat = 6 / (channel_height * channel_height) * (x 1%nat * (channel_height - x 1%nat)).
Proof. unfold inflow_velocity, inflow_maximum. cbn [Nat.eqb pow Nat.mul Nat.sub Nat.add]. unfold channel_height. field. Qed.
Lemma inflow_3 t x : inflow_velocity 3 false t x 0%nat =
  (6 / (channel_height * channel_height) * (x 1%nat * (channel_height - x 1%nat))) * (6 / (channel_height * channel_height) * (x 2%nat * (channel_height - x 2%nat))).
Proof. unfold inflow_velocity, inflow_maximum. cbn [Nat.eqb pow Nat.mul Nat.sub Nat.add]. unfold channel_height. field. Qed.
Lemma inflow_fluctuating dim t x c : inflow_velocity dim true t x c = inflow_velocity dim false t x c * sin (t * PI / 8).
Proof. unfold inflow_velocity. destruct c; [reflexivity|ring]. Qed.
Lemma profile_range y : 0 < y < channel_height -> 0 < 6 / (channel_height * channel_height) * (y * (channel_height - y)) <= 3 / 2.
Proof.
  unfold channel_height. intros [A B]. split.
  - apply Rmult_lt_0_compat; [lra|]. apply Rmult_lt_0_compat; lra.
  - pose proof (Rle_0_sqr (y - 41 / 200)) as Q. unfold Rsqr in Q.
    replace (6 / (41 / 100 * (41 / 100))) with (60000 / 1681) by field. nra.
Qed.
Theorem C97_inflow : forall dim, dim = 2%nat \/ dim = 3%nat -> forall fluctuating t x,
  (on_wall dim x -> forall c, inflow_velocity dim fluctuating t x c = 0) /\
  (forall c, c <> 0%nat -> inflow_velocity dim fluctuating t x c = 0) /\
  (in_channel dim x -> 0 < inflow_velocity dim false t x 0%nat <= inflow_maximum dim) /\
  (x 1%nat = channel_height / 2 -> x 2%nat = channel_height / 2 -> inflow_velocity dim false t x 0%nat = inflow_maximum dim) /\
  inflow_velocity dim true t x 0%nat = inflow_velocity dim false t x 0%nat * sin (t * PI / 8) /\ inflow_velocity dim true 0 x 0%nat = 0.
Proof.
  intros dim Hd fl t x.
  assert (W : on_wall dim x -> inflow_velocity dim false t x 0%nat = 0).
  { intros H. destruct Hd as [-> | ->].
    - rewrite inflow_2. destruct H as [H|[H|[H _]]]; [rewrite H; ring|rewrite H; ring|lia].
    - rewrite inflow_3. destruct H as [H|[H|[_ [H|H]]]]; rewrite H; ring. }
  refine (conj _ (conj _ (conj _ (conj _ (conj _ _))))).
  - intros H c. destruct c; [|reflexivity]. destruct fl; [rewrite inflow_fluctuating|]; rewrite W by exact H; [ring|reflexivity].
  - intros c Hc. destruct c; [contradiction|reflexivity].
  - intros [H1 H2]. destruct Hd as [-> | ->].
    + rewrite inflow_2. apply profile_range, H1.
    + rewrite inflow_3. pose proof (profile_range _ H1) as A. pose proof (profile_range _ (H2 eq_refl)) as B. unfold inflow_maximum. cbn [Nat.eqb]. split; [apply Rmult_lt_0_compat; lra|].
      replace (9 / 4) with (3 / 2 * (3 / 2)) by field. apply Rmult_le_compat; lra.
  - intros H1 H2. destruct Hd as [-> | ->]; [rewrite inflow_2, H1|rewrite inflow_3, H1, H2]; unfold inflow_maximum, channel_height; cbn [Nat.eqb]; field.
  - apply inflow_fluctuating.
  - rewrite inflow_fluctuating. replace (0 * PI / 8) with 0 by field. rewrite sin_0. ring.
Qed.
Print Assumptions C97_inflow.
Theorem C97_inflow_mean : forall t x,
  is_RInt (fun y => inflow_velocity 2 false t (move x 1 y) 0%nat) 0 channel_height (1 * channel_height) /\
  exists flux, (forall z, is_RInt (fun y => inflow_velocity 3 false t (move (move x 2 z) 1 y) 0%nat) 0 channel_height (flux z)) /\
    is_RInt flux 0 channel_height (1 * (channel_height * channel_height)).
Proof.
  intros t x. assert (P : 0 < channel_height) by (unfold channel_height; lra).
  assert (Q : is_RInt (fun y => 6 / (channel_height * channel_height) * (y * (channel_height - y))) 0 channel_height channel_height).
  { evar_last; [apply (is_RInt_scal (fun y => y * (channel_height - y)) 0 channel_height (6 / (channel_height * channel_height))), parabola_RInt, P|].
    change (6 / (channel_height * channel_height) * (channel_height * channel_height * channel_height / 6) = channel_height). field. lra. }
  split.
  - rewrite Rmult_1_l. eapply is_RInt_ext; [|exact Q]. intros y _. rewrite inflow_2. reflexivity.
  - exists (fun z => channel_height * (6 / (channel_height * channel_height) * (z * (channel_height - z)))). split.
    + intros z. rewrite Rmult_comm. eapply is_RInt_ext; [|evar_last; [apply (is_RInt_scal (fun y => 6 / (channel_height * channel_height) * (y * (channel_height - y))) 0 channel_height (6 / (channel_height * channel_height) * (z * (channel_height - z)))), Q|reflexivity]].
      intros y _. rewrite inflow_3. unfold move. cbn [Nat.eqb]. change ((6 / (channel_height * channel_height) * (z * (channel_height - z))) * (6 / (channel_height * channel_height) * (y * (channel_height - y))) = (6 / (channel_height * channel_height) * (y * (channel_height - y))) * (6 / (channel_height * channel_height) * (z * (channel_height - z)))). apply Rmult_comm.
    + rewrite Rmult_1_l. apply (is_RInt_scal (fun z => 6 / (channel_height * channel_height) * (z * (channel_height - z))) 0 channel_height channel_height channel_height), Q.
Qed.
Print Assumptions C97_inflow_mean.
(** *** lid of the cavity: the velocity vanishes on all other walls and at the edges of the lid, and does not exceed one *)
Theorem C97_lid : forall x c,
  (x 1%nat <> 1 -> lid_velocity x c = 0) /\
  (x 0%nat = 0 \/ x 0%nat = 1 \/ x 2%nat = 0 \/ x 2%nat = cavity_depth -> lid_velocity x c = 0) /\
  0 <= lid_velocity x c <= 1 /\ (c <> 0%nat -> lid_velocity x c = 0) /\
  (x 1%nat = 1 -> x 0%nat = 1 / 2 -> x 2%nat = cavity_depth / 2 -> lid_velocity x 0%nat = 1).
Proof.
  intros x c. unfold lid_velocity, cavity_depth.
  assert (Z : 0 <= 1 / 4 * (1 - cos (PI * 2 * x 0%nat)) * (1 - cos (PI * 2 * x 2%nat / 3)) <= 1).
  { pose proof (COS_bound (PI * 2 * x 0%nat)) as A. pose proof (COS_bound (PI * 2 * x 2%nat / 3)) as B.
    set (c0 := cos (PI * 2 * x 0%nat)) in *. set (c1 := cos (PI * 2 * x 2%nat / 3)) in *. split; nra. }
  refine (conj _ (conj _ (conj _ (conj _ _)))).
  - intros H. destruct (Req_EM_T (x 1%nat - 1) 0); [exfalso; lra|reflexivity].
  - intros H. destruct (Req_EM_T (x 1%nat - 1) 0); [|reflexivity]. destruct c; [|reflexivity].
    destruct H as [H|[H|[H|H]]]; rewrite H.
    + rewrite Rmult_0_r, cos_0. ring.
    + replace (PI * 2 * 1) with (2 * PI) by ring. rewrite cos_2PI. ring.
    + replace (PI * 2 * 0 / 3) with 0 by field. rewrite cos_0. ring.
    + replace (PI * 2 * 3 / 3) with (2 * PI) by field. rewrite cos_2PI. ring.
  - destruct (Req_EM_T (x 1%nat - 1) 0); [|lra]. destruct c; [exact Z|lra].
  - intros H. destruct (Req_EM_T (x 1%nat - 1) 0); [|reflexivity]. destruct c; [contradiction|reflexivity].
  - intros H1 H0 H2. destruct (Req_EM_T (x 1%nat - 1) 0); [|exfalso; lra]. rewrite H0, H2.
    replace (PI * 2 * (1 / 2)) with PI by field. replace (PI * 2 * (3 / 2) / 3) with PI by field. rewrite cos_PI. field.
Qed.
Print Assumptions C97_lid.
(** *** grids: the transformations keep the order of the grid points and the extent of the domain *)
Theorem C97_grids : 
  (forall x y, x < y -> cavity_transform x < cavity_transform y) /\ cavity_transform 0 = 0 /\ cavity_transform 1 = 1 /\ (forall x, cavity_transform (1 - x) = 1 - cavity_transform x) /\
  (forall x y, x < y -> channel_transform x < channel_transform y) /\ channel_transform 0 = -1 /\ channel_transform 1 = 1 /\ (forall x, channel_transform (1 - x) = - channel_transform x).
Proof.
  assert (P2 : 0 < tanh 2) by (rewrite <- tanh_zero; apply tanh_increasing; lra).
  assert (P1 : 0 < tanh 1) by (rewrite <- tanh_zero; apply tanh_increasing; lra).
  assert (IN : forall p a b, 0 < p -> a < b -> a / p < b / p) by (intros p a b Hp H; unfold Rdiv; apply Rmult_lt_compat_r; [apply Rinv_0_lt_compat, Hp|exact H]).
  unfold cavity_transform, channel_transform. refine (conj _ (conj _ (conj _ (conj _ (conj _ (conj _ (conj _ _))))))).
  - intros x y H. pose proof (IN _ _ _ P2 (tanh_increasing (2 * (2 * x - 1)) (2 * (2 * y - 1)) ltac:(lra))) as Q. unfold Rdiv in *. rewrite !(Rmult_assoc (1 * / 2)). lra.
  - replace (2 * (2 * 0 - 1)) with (- (2)) by ring. rewrite tanh_odd. field. lra.
  - replace (2 * (2 * 1 - 1)) with 2 by ring. field. lra.
  - intros x. replace (2 * (2 * (1 - x) - 1)) with (- (2 * (2 * x - 1))) by ring. rewrite tanh_odd. field. lra.
  - intros x y H. apply IN; [exact P1|]. apply tanh_increasing. lra.
  - replace (1 * (2 * 0 - 1)) with (- (1)) by ring. rewrite tanh_odd. field. lra.
  - replace (1 * (2 * 1 - 1)) with 1 by ring. field. lra.
  - intros x. replace (1 * (2 * (1 - x) - 1)) with (- (1 * (2 * x - 1))) by ring. rewrite tanh_odd. field. lra.
Qed.
Print Assumptions C97_grids.
(** *** periodic channel: no slip and periodicity *)
Theorem C97_channel : forall x c,
  (x 1%nat = -1 \/ x 1%nat = 1 -> initial_channel x c = 0) /\
  initial_channel (move x 2 (x 2%nat + 2 / 3 * PI)) c = initial_channel x c /\
  initial_channel (move x 0 (x 0%nat + 2 * PI)) c = initial_channel x c.
Proof.
  intros x c. unfold initial_channel, move. refine (conj _ (conj _ _)).
  - intros H. assert (E : 1 - x 1%nat * x 1%nat * x 1%nat * x 1%nat = 0) by (destruct H as [H|H]; rewrite H; ring). rewrite E. destruct c as [|[|[|c]]]; ring.
  - cbn [Nat.eqb]. replace ((x 2%nat + 2 / 3 * PI) * 3) with (x 2%nat * 3 + 2 * PI) by field.
    rewrite cos_plus, sin_plus, cos_2PI, sin_2PI. destruct c as [|[|[|c]]]; ring.
  - reflexivity.
Qed.
(** violated: the start velocity is not divergence free *)
Theorem C97_violation_divergence : exists x d0 d1 d2,
  is_partial (fun y => initial_channel y 0%nat) 0 x d0 /\ is_partial (fun y => initial_channel y 1%nat) 1 x d1 /\ is_partial (fun y => initial_channel y 2%nat) 2 x d2 /\
  d0 + d1 + d2 <> 0.
Proof.
  exists (fun _ => 0). exists 0, 0, (3 / 5). refine (conj _ (conj _ (conj _ _))).
  - unfold is_partial, initial_channel, move. cbn [Nat.eqb]. auto_derive; [exact I|]. ring.
  - unfold is_partial, initial_channel, move. cbn [Nat.eqb]. auto_derive; [exact I|]. ring.
  - unfold is_partial, initial_channel, move. cbn [Nat.eqb]. auto_derive; [exact I|]. replace (0 * 3) with 0 by ring. rewrite ?Rmult_0_l, cos_0. field.
  - lra.
Qed.
(** violated: the volume force of the program acts against the flow: its power on the start velocity is negative at every point inside *)
Theorem C97_violation_force : forall x, -1 < x 1%nat < 1 -> sumn 3 (fun c => channel_force c * initial_channel x c) < 0.
Proof.
  intros x H. cbn [sumn channel_force]. unfold initial_channel. set (y := x 1%nat) in *. 
  assert (Q : y * y < 1) by nra. assert (Q0 : 0 <= y * y) by apply Rle_0_sqr. assert (P : y * y * y * y < 1) by (replace (y * y * y * y) with ((y * y) * (y * y)) by ring; nra). lra.
Qed.
(** the laminar flow of this force runs in the negative direction *)
Theorem C97_violation_laminar : forall mu, 0 < mu ->
  let u := fun y => channel_force 0 / (2 * mu) * (1 - y * y) in
  u (-1) = 0 /\ u 1 = 0 /\ (exists u1, (forall y, is_derive u y (u1 y)) /\ (forall y, is_derive (fun s => mu * u1 s) y (- channel_force 0))) /\
  (forall y, -1 < y < 1 -> u y < 0).
Proof.
  intros mu Hmu u. unfold u, channel_force. refine (conj _ (conj _ (conj _ _))); [ring|ring| |].
  - exists (fun y => (337204 / 100000000) / mu * y). split; intros y; (auto_derive; [exact I|field; lra]).
  - intros y H. assert (Q : y * y < 1) by nra.
    apply Ropp_lt_cancel. rewrite Ropp_0. replace (- (- (337204 / 100000000) / (2 * mu) * (1 - y * y))) with (337204 / 100000000 / (2 * mu) * (1 - y * y)) by (field; lra).
    apply Rmult_lt_0_compat; [|lra]. apply Rdiv_lt_0_compat; lra.
Qed.
Print Assumptions C97_violation_laminar.
(** ** The hypotheses are met *)
Example C96_nonvacuous : exists u p, forall nu : R, (forall t x i, (i < 2)%nat -> beltrami_u 2 nu t x i = Some (u nu t x i)) /\ (forall t x, beltrami_p 2 nu t x = Some (p nu t x)).
Proof.
  exists (fun nu t x i => match beltrami_u 2 nu t x i with Some v => v | None => 0 end), (fun nu t x => match beltrami_p 2 nu t x with Some v => v | None => 0 end).
  intros nu. split; [intros t x i Hi; destruct i as [|[|i]]; [reflexivity|reflexivity|lia]|reflexivity].
Qed.
Example C96_nonvacuous_3 : exists u p, forall nu : R, (forall t x i, (i < 3)%nat -> beltrami_u 3 nu t x i = Some (u nu t x i)) /\ (forall t x, beltrami_p 3 nu t x = Some (p nu t x)).
Proof.
  exists (fun nu t x i => match beltrami_u 3 nu t x i with Some v => v | None => 0 end), (fun nu t x => match beltrami_p 3 nu t x with Some v => v | None => 0 end).
  intros nu. split; [intros t x i Hi; destruct i as [|[|[|i]]]; [reflexivity|reflexivity|reflexivity|lia]|reflexivity].
Qed.
Example C96_wedge_nonvacuous : 0 < PI / 2 < PI /\ wc (wedge_A (2 / 3) (PI / 2)) <> 0.
Proof.
  pose proof PI_RGT_0 as P. pose proof PI2_1 as P1. split; [lra|]. pose proof (wedge_denominator_neg (2 / 3) (PI / 2) ltac:(lra) ltac:(lra)) as D.
  unfold wedge_A. cbn [wc]. rewrite sin_PI2. intros E. apply Rmult_integral in E. destruct E as [E|E]; [nra|].
  assert (Z : wedge_denominator (2 / 3) (PI / 2) * / wedge_denominator (2 / 3) (PI / 2) = 1) by (apply Rinv_r; lra). rewrite E in Z. lra.
Qed.
Example C97_nonvacuous : in_channel 3 (fun _ => 1 / 5) /\ on_wall 2 (fun _ => 0).
Proof. unfold in_channel, on_wall, channel_height. split; [split; intros; lra|left; reflexivity]. Qed.
