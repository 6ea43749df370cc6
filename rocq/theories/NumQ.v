(** * Rational instance of [Num] and its embedding into the reals

    [QNum] is only used to evaluate concrete witnesses about the real instance by computation:
    [Q2R] is a homomorphism from [QNum] to [RNum] (including division by zero). *)
From Coq Require Import ZArith QArith Reals Qreals Bool Lra.
From Verif Require Import Num.

Definition Qtrunc (x : Q) : Z := Z.quot (Qnum x) (Zpos (Qden x)).
Definition Qltb (x y : Q) : bool := negb (Qle_bool y x).
Definition QNum : Num := {|
  car := Q; nadd := fun x y => Qred (Qplus x y); nsub := fun x y => Qred (Qminus x y);
  nmul := fun x y => Qred (Qmult x y); ndiv := fun x y => Qred (Qdiv x y); nopp := Qopp;
  nabs := fun x => if Qltb x 0 then Qopp x else x; nltb := Qltb; neqb := Qeq_bool;
  nlit := fun q => q; nint := fun x => int_range (Qtrunc x) |}.

Record num_hom (A B : Num) (f : A -> B) : Prop := {
  h_add : forall x y, f (nadd x y) = nadd (f x) (f y);
  h_sub : forall x y, f (nsub x y) = nsub (f x) (f y);
  h_mul : forall x y, f (nmul x y) = nmul (f x) (f y);
  h_div : forall x y, f (ndiv x y) = ndiv (f x) (f y);
  h_opp : forall x, f (nopp x) = nopp (f x);
  h_abs : forall x, f (nabs x) = nabs (f x);
  h_ltb : forall x y, nltb (f x) (f y) = nltb x y;
  h_eqb : forall x y, neqb (f x) (f y) = neqb x y;
  h_lit : forall q, f (nlit q) = nlit q }.

Local Open Scope R_scope.
Lemma Q2R_red x : Q2R (Qred x) = Q2R x.
Proof. apply Qeq_eqR, Qred_correct. Qed.
Lemma Q2R_div' x y : Q2R (x / y)%Q = Q2R x / Q2R y.
Proof.
  unfold Rdiv, Qdiv. rewrite Q2R_mult. f_equal.
  destruct (Qeq_dec y 0) as [H|H].
  - rewrite (Qeq_eqR _ _ H). 
    assert (E : (/ y == 0)%Q) by (rewrite H; reflexivity).
    rewrite (Qeq_eqR _ _ E). rewrite RMicromega.Q2R_0. rewrite Rinv_0. reflexivity.
  - apply Q2R_inv; auto.
Qed.
Lemma Qltb_Rltb x y : Rltb (Q2R x) (Q2R y) = Qltb x y.
Proof.
  unfold Qltb. destruct (Rltb_spec (Q2R x) (Q2R y)) as [H|H]; symmetry.
  - apply negb_true_iff. apply not_true_is_false. intros E. apply Qle_bool_iff in E.
    apply Qle_Rle in E. lra.
  - apply negb_false_iff. apply Qle_bool_iff. apply Rle_Qle. lra.
Qed.

Lemma Q2R_hom : num_hom QNum RNum Q2R.
Proof.
  constructor; cbn [QNum RNum car nadd nsub nmul ndiv nopp nabs nltb neqb nlit]; intros; rewrite ?Q2R_red.
  - apply Q2R_plus.
  - apply Q2R_minus.
  - apply Q2R_mult.
  - apply Q2R_div'.
  - apply Q2R_opp.
  - rewrite <- Qltb_Rltb. destruct (Rltb_spec (Q2R x) (Q2R 0)) as [H|H];
      rewrite RMicromega.Q2R_0 in H.
    + rewrite Q2R_opp. rewrite Rabs_left; auto.
    + rewrite Rabs_right; lra.
  - apply Qltb_Rltb.
  - destruct (Reqb_spec (Q2R x) (Q2R y)) as [H|H]; symmetry.
    + apply Qeq_bool_iff. apply eqR_Qeq; auto.
    + apply not_true_is_false. intros E. apply Qeq_bool_iff in E. apply H, Qeq_eqR, E.
  - reflexivity.
Qed.
