(** * Finite sums of reals: library lemmas (no model of code) *)
From Coq Require Import Reals List Arith Lia Lra.
Import ListNotations.
Open Scope R_scope.

Fixpoint sumn (n : nat) (f : nat -> R) : R :=
  match n with O => 0 | S n => sumn n f + f n end.
Fixpoint suml {A} (l : list A) (f : A -> R) : R :=
  match l with [] => 0 | x :: l => f x + suml l f end.

Lemma sumn_ext n f g : (forall i, (i < n)%nat -> f i = g i) -> sumn n f = sumn n g.
Proof. induction n; cbn; intros H; [reflexivity|]. rewrite IHn, H; auto. Qed.
Lemma sumn_plus n f g : sumn n (fun i => f i + g i) = sumn n f + sumn n g.
Proof. induction n; cbn; [ring|]. rewrite IHn; ring. Qed.
Lemma sumn_minus n f g : sumn n (fun i => f i - g i) = sumn n f - sumn n g.
Proof. induction n; cbn; [ring|]. rewrite IHn; ring. Qed.
Lemma sumn_opp n f : sumn n (fun i => - f i) = - sumn n f.
Proof. induction n; cbn; [ring|]. rewrite IHn; ring. Qed.
Lemma sumn_scal n a f : sumn n (fun i => a * f i) = a * sumn n f.
Proof. induction n; cbn; [ring|]. rewrite IHn; ring. Qed.
Lemma sumn_scal_r n a f : sumn n (fun i => f i * a) = sumn n f * a.
Proof. induction n; cbn; [ring|]. rewrite IHn; ring. Qed.
Lemma sumn_0 n : sumn n (fun _ => 0) = 0.
Proof. induction n; cbn; [ring|]. rewrite IHn; ring. Qed.
Lemma sumn_zero n f : (forall i, (i < n)%nat -> f i = 0) -> sumn n f = 0.
Proof. intros H. rewrite (sumn_ext n f (fun _ => 0)); auto. apply sumn_0. Qed.
Lemma sumn_nonneg n f : (forall i, (i < n)%nat -> 0 <= f i) -> 0 <= sumn n f.
Proof. induction n; cbn; intros H; [lra|]. assert (0 <= sumn n f) by auto. assert (0 <= f n) by auto. lra. Qed.
Lemma sumn_le n f g : (forall i, (i < n)%nat -> f i <= g i) -> sumn n f <= sumn n g.
Proof. induction n; cbn; intros H; [lra|]. assert (sumn n f <= sumn n g) by auto. assert (f n <= g n) by auto. lra. Qed.
Lemma sumn_swap n m f : sumn n (fun i => sumn m (fun j => f i j)) = sumn m (fun j => sumn n (fun i => f i j)).
Proof.
  induction n; cbn; [symmetry; apply sumn_0|]. rewrite IHn, <- sumn_plus. apply sumn_ext; intros; reflexivity.
Qed.
Lemma sumn_delta n k f : (k < n)%nat -> (forall i, (i < n)%nat -> i <> k -> f i = 0) -> sumn n f = f k.
Proof.
  induction n; intros Hk H; [lia|]. cbn. destruct (Nat.eq_dec k n) as [->|Hne].
  - rewrite sumn_zero; [ring|]. intros i Hi; apply H; lia.
  - rewrite IHn; [|lia|intros; apply H; lia]. rewrite (H n); [ring|lia|auto].
Qed.
Lemma sumn_nonneg_zero n f : (forall i, (i < n)%nat -> 0 <= f i) -> sumn n f = 0 -> forall i, (i < n)%nat -> f i = 0.
Proof.
  induction n; intros H E i Hi; [lia|]. cbn in E. assert (0 <= sumn n f) by (apply sumn_nonneg; auto). assert (0 <= f n) by auto.
  assert (sumn n f = 0 /\ f n = 0) as [E1 E2] by lra. destruct (Nat.eq_dec i n) as [->|]; auto. apply IHn; auto; lia.
Qed.

Section L.
Context {A : Type}.
Implicit Types (l : list A) (f g : A -> R).
Lemma suml_ext l f g : (forall x, In x l -> f x = g x) -> suml l f = suml l g.
Proof. induction l; cbn; intros H; [reflexivity|]. rewrite IHl, H; auto. Qed.
Lemma suml_plus l f g : suml l (fun i => f i + g i) = suml l f + suml l g.
Proof. induction l; cbn; [ring|]. rewrite IHl; ring. Qed.
Lemma suml_minus l f g : suml l (fun i => f i - g i) = suml l f - suml l g.
Proof. induction l; cbn; [ring|]. rewrite IHl; ring. Qed.
Lemma suml_opp l f : suml l (fun i => - f i) = - suml l f.
Proof. induction l; cbn; [ring|]. rewrite IHl; ring. Qed.
Lemma suml_scal l a f : suml l (fun i => a * f i) = a * suml l f.
Proof. induction l; cbn; [ring|]. rewrite IHl; ring. Qed.
Lemma suml_zero l f : (forall x, In x l -> f x = 0) -> suml l f = 0.
Proof. induction l; cbn; intros H; [reflexivity|]. rewrite IHl, H; auto; ring. Qed.
Lemma suml_app l m f : suml (l ++ m) f = suml l f + suml m f.
Proof. induction l; cbn; [ring|]. rewrite IHl; ring. Qed.
Lemma suml_nonneg l f : (forall x, In x l -> 0 <= f x) -> 0 <= suml l f.
Proof. induction l; cbn; intros H; [lra|]. assert (0 <= f a) by auto. assert (0 <= suml l f) by auto. lra. Qed.
Lemma suml_nonneg_zero l f : (forall x, In x l -> 0 <= f x) -> suml l f = 0 -> forall x, In x l -> f x = 0.
Proof.
  induction l; cbn; intros H E x Hx; [destruct Hx|]. assert (0 <= f a) by auto. assert (0 <= suml l f) by (apply suml_nonneg; auto).
  assert (f a = 0 /\ suml l f = 0) as [E1 E2] by lra. destruct Hx as [<-|Hx]; auto.
Qed.
Lemma suml_sumn l n (f : A -> nat -> R) : suml l (fun x => sumn n (f x)) = sumn n (fun i => suml l (fun x => f x i)).
Proof. induction l; cbn; [symmetry; apply sumn_0|]. rewrite IHl, <- sumn_plus. reflexivity. Qed.
Lemma suml_map {B} (h : B -> A) (l : list B) f : suml (map h l) f = suml l (fun x => f (h x)).
Proof. induction l; cbn; auto. rewrite IHl; auto. Qed.
End L.
Lemma suml_swap {A B} (l : list A) (m : list B) (f : A -> B -> R) :
  suml l (fun x => suml m (f x)) = suml m (fun y => suml l (fun x => f x y)).
Proof. induction l; cbn; [symmetry; apply suml_zero; auto|]. rewrite IHl, <- suml_plus. reflexivity. Qed.
