(** * Model of the interpolation of the indicator field onto the pressure nodes
    source/level_set_base.cc:50-138 (constructor of LevelSetBaseAlgorithm), source/phase_field.cc:58-77 (constructor of PhaseFieldSolver),
    used in source/level_set_okz.cc:366-378 and source/phase_field_local.cc:96-104 (see Model_Force).

    Simplifications: exact real arithmetic.  An element is the list of its shape functions, the list of its support points and the
    table get_poly_space_numbering_inverse() (lexicographic number -> number in the element).  FEEvaluation stores the unknowns of a cell
    in lexicographic order on quadrilaterals and hexahedra, and in the order of the element on simplices. *)
From Coq Require Import Reals List Bool Arith.
From Verif Require Import SumR Model_Force Model_ContactAngle.
Import ListNotations.
Open Scope R_scope.

(** an element: number of unknowns per cell, shape functions, support points, numbering *)
Record element := MkElement { e_n : nat; e_shape : nat -> list R -> R; e_support : nat -> list R; e_lex : nat -> nat }.
(** the pressure element: FE_Q (or FE_SimplexP), FE_Q_DG0, anything else *)
Inductive kind := FEQ | FEQDG0 | Other.
(** level_set_base.cc:66-138; FullMatrix::reinit sets all entries to zero *)
Definition interpolation (simplex : bool) (k : kind) (ls p : element) (j i : nat) : R :=
  if simplex then e_shape ls i (e_support p j)
  else match k with
       | FEQ => e_shape ls (e_lex ls i) (e_support p (e_lex p j))
       | FEQDG0 => if Nat.ltb j (e_n p - 1) then e_shape ls (e_lex ls i) (e_support p (e_lex p j)) else 0
       | Other => 0
       end.
(** phase_field.cc:60-77: None is the exception for other pressure elements than FE_Q *)
Definition interpolation_phase_field (k : kind) (ls p : element) : option (nat -> nat -> R) :=
  match k with FEQ => Some (fun j i => e_shape ls (e_lex ls i) (e_support p (e_lex p j))) | _ => None end.

(** ** The elements *)
(** coordinates of the lexicographic index i among b per direction, first direction running fastest *)
Fixpoint digits (d b i : nat) : list nat := match d with O => [] | S d => (i mod b)%nat :: digits d b (i / b) end.
(** tensor product of the hat functions on n equal parts *)
Fixpoint tensor_hat (n : nat) (ix : list nat) (x : list R) : R :=
  match ix, x with i :: ix, t :: x => hat n i t * tensor_hat n ix x | _, _ => 1 end.
(** FE_Q_iso_Q1(n) in dimension d with the numbering [lex] and its inverse [unlex] *)
Definition iso_q1 (d n : nat) (lex unlex : nat -> nat) : element :=
  MkElement (S n ^ d) (fun k x => tensor_hat n (digits d (S n) (unlex k)) x)
    (fun k => map (fun i => INR i / INR n) (digits d (S n) (unlex k))) lex.

(** ** A cell: what Model_Force needs and the numbers of the unknowns of the indicator and of the pressure, in the order of the elements *)
Record geometry := MkGeo { g_nq : nat; g_JxW : nat -> R; g_nv : nat; g_vshape : nat -> nat -> R; g_vdof : nat -> nat;
  g_lshape : nat -> nat -> R; g_lgrad : nat -> nat -> nat -> R; g_pgrad : nat -> nat -> nat -> R; g_curv : nat -> R;
  g_ls : nat -> nat; g_p : nat -> nat }.
(** order of the unknowns in FEEvaluation *)
Definition order (simplex : bool) (e : element) (i : nat) : nat := if simplex then i else e_lex e i.
(** level_set_okz.cc:349 (read_dof_values_plain) and the matrix above *)
Definition cell_of (simplex : bool) (k : kind) (ls p : element) (L : nat -> R) (c : geometry) : force_cell :=
  MkFCell (g_nq c) (g_JxW c) (g_nv c) (g_vshape c) (g_vdof c) (e_n ls) (g_lshape c) (g_lgrad c) (e_n p) (g_pgrad c)
    (interpolation simplex k ls p) (fun j => L (g_ls c (order simplex ls j))) (g_curv c).
