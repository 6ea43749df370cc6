(** * Arithmetic interface

    The C++ code computes with [double].  All models of such code are written over the record
    [Num] of operations below.  It carries NO laws: a theorem quantified over every [Num] uses no
    property of the arithmetic and therefore holds for exact reals and for floating point alike.
    Two instances are given: [RNum] (exact reals) and [FNum] (IEEE-754 binary64 as specified by
    Coq's [SpecFloat], round to nearest even; plain Gallina, no axioms). *)
From Coq Require Import ZArith QArith Reals Bool.
From Coq Require Import SpecFloat.
From Coq Require Import Lra Lia.

Record Num := MkNum {
  car  :> Type;
  nadd : car -> car -> car;
  nsub : car -> car -> car;
  nmul : car -> car -> car;
  ndiv : car -> car -> car;
  nopp : car -> car;
  nabs : car -> car;
  nltb : car -> car -> bool;        (* operator <  (false on NaN) *)
  neqb : car -> car -> bool;        (* operator == (false on NaN) *)
  nlit : Q -> car;                  (* a floating point literal of the source text *)
  nint : car -> option Z            (* conversion to [int]; [None] = undefined behaviour *)
}.

Arguments nadd {_}. Arguments nsub {_}. Arguments nmul {_}. Arguments ndiv {_}.
Arguments nopp {_}. Arguments nabs {_}. Arguments nltb {_}. Arguments neqb {_}.
Arguments nlit {_}. Arguments nint {_}.

(** [std::min(a,b)] is [b < a ? b : a] and [std::max(a,b)] is [a < b ? b : a]. *)
Definition nmin {N : Num} (a b : N) : N := if nltb b a then b else a.
Definition nmax {N : Num} (a b : N) : N := if nltb a b then b else a.
Definition ngtb {N : Num} (a b : N) : bool := nltb b a.

(** Conversion double -> int: truncation toward zero, undefined outside the 32 bit range. *)
Definition int_range (z : Z) : option Z :=
  if ((-2147483648 <=? z)%Z && (z <=? 2147483647)%Z)%bool then Some z else None.

(** ** Exact reals *)
Definition Rltb (x y : R) : bool := if Rlt_dec x y then true else false.
Definition Reqb (x y : R) : bool := if Req_EM_T x y then true else false.
Definition Rtrunc (x : R) : Z := if Rltb x 0 then (- Int_part (- x))%Z else Int_part x.

Definition RNum : Num := {|
  car := R; nadd := Rplus; nsub := Rminus; nmul := Rmult; ndiv := Rdiv; nopp := Ropp;
  nabs := Rabs; nltb := Rltb; neqb := Reqb; nlit := Q2R;
  nint := fun x => int_range (Rtrunc x) |}.

(** ** IEEE-754 binary64 *)
Definition F64 := spec_float.
Definition Fof_Z (z : Z) : F64 := binary_normalize 53 1024 z 0 false.
Definition Fof_Q (q : Q) : F64 := SFdiv 53 1024 (Fof_Z (Qnum q)) (Fof_Z (Zpos (Qden q))).
Definition Ftrunc (x : F64) : option Z :=
  match x with
  | S754_zero _ => Some 0%Z
  | S754_finite s m e =>
      let a := match e with
               | Zneg p => (Zpos m / 2 ^ Zpos p)%Z
               | _ => (Zpos m * 2 ^ e)%Z
               end in
      int_range (if s then (- a)%Z else a)
  | _ => None
  end.

Definition FNum : Num := {|
  car := F64; nadd := SFadd 53 1024; nsub := SFsub 53 1024; nmul := SFmul 53 1024;
  ndiv := SFdiv 53 1024; nopp := SFopp; nabs := SFabs; nltb := SFltb; neqb := SFeqb;
  nlit := Fof_Q; nint := Ftrunc |}.

(** ** Facts about the real instance *)
Lemma Rltb_spec x y : reflect (x < y)%R (Rltb x y).
Proof. unfold Rltb; destruct (Rlt_dec x y); constructor; assumption. Qed.
Lemma Reqb_spec x y : reflect (x = y) (Reqb x y).
Proof. unfold Reqb; destruct (Req_EM_T x y); constructor; assumption. Qed.
Lemma Rltb_true x y : Rltb x y = true <-> (x < y)%R.
Proof. destruct (Rltb_spec x y); split; intros; try easy. Qed.
Lemma Rltb_false x y : Rltb x y = false <-> (y <= x)%R.
Proof. destruct (Rltb_spec x y); split; intros; try easy; lra. Qed.
Lemma Reqb_true x y : Reqb x y = true <-> x = y.
Proof. destruct (Reqb_spec x y); split; intros; easy. Qed.
Lemma Reqb_false x y : Reqb x y = false <-> x <> y.
Proof. destruct (Reqb_spec x y); split; intros; easy. Qed.

Lemma Rtrunc_nonneg x : (0 <= x)%R -> (IZR (Rtrunc x) <= x < IZR (Rtrunc x) + 1)%R.
Proof.
  intros Hx; unfold Rtrunc. destruct (Rltb_spec x 0) as [H|H]; [lra|].
  destruct (base_Int_part x) as [H1 H2]. lra.
Qed.

Lemma Rtrunc_unique x z : (0 <= x)%R -> (IZR z <= x < IZR z + 1)%R -> Rtrunc x = z.
Proof.
  intros Hx [H1 H2]; destruct (Rtrunc_nonneg x Hx) as [H3 H4].
  assert (Ha : (IZR z < IZR (Rtrunc x + 1))%R) by (rewrite plus_IZR; lra).
  assert (Hb : (IZR (Rtrunc x) < IZR (z + 1))%R) by (rewrite plus_IZR; lra).
  apply lt_IZR in Ha, Hb. lia.
Qed.

Lemma int_range_Some z : (-2147483648 <= z <= 2147483647)%Z -> int_range z = Some z.
Proof.
  intros [H1 H2]; unfold int_range.
  apply Z.leb_le in H1, H2. rewrite H1, H2. reflexivity.
Qed.
Lemma int_range_inv z w : int_range z = Some w -> w = z /\ (-2147483648 <= z <= 2147483647)%Z.
Proof.
  unfold int_range. destruct (Z.leb_spec (-2147483648) z); destruct (Z.leb_spec z 2147483647);
    simpl; intros E; inversion E; subst; auto.
Qed.

(** Literals over R: [lit] normalises [Q2R (p # q)]. *)
Lemma Q2R_lit p q : Q2R (Qmake p q) = (IZR p / IZR (Zpos q))%R.
Proof. reflexivity. Qed.

(** Turn all comparison booleans of the real instance into propositions. *)
Ltac rnum :=
  cbn [car nadd nsub nmul ndiv nopp nabs nltb neqb nlit nint RNum] in *.
Ltac noif a := lazymatch a with context [if _ then _ else _] => fail | _ => idtac end.
Ltac rcase1 :=
  match goal with
  | |- context [Rltb ?a ?b] => noif a; noif b; destruct (Rltb_spec a b)
  | H : context [Rltb ?a ?b] |- _ => noif a; noif b; destruct (Rltb_spec a b)
  | |- context [Reqb ?a ?b] => noif a; noif b; destruct (Reqb_spec a b)
  | H : context [Reqb ?a ?b] |- _ => noif a; noif b; destruct (Reqb_spec a b)
  | |- context [Rle_dec ?a ?b] => noif a; noif b; destruct (Rle_dec a b)
  | H : context [Rle_dec ?a ?b] |- _ => noif a; noif b; destruct (Rle_dec a b)
  end.
Ltac rcase := repeat rcase1.

Example FNum_tenth : nlit (n:=FNum) (1#10) = S754_finite false 7205759403792794 (-56).
Proof. vm_compute. reflexivity. Qed.
