(** * Model of the curvature right hand side and of the initial profiles
    source/level_set_okz_compute_curvature.cc, source/level_set_okz.cc:201-211, source/phase_field.cc:101-109 *)
From Coq Require Import Reals List Bool.
From Verif Require Import SumR Model_Bubble Model_LevelSetOps.
Import ListNotations.
Open Scope R_scope.

(** normal field: component d of node j *)
Definition nfield := nat -> nat -> R.
(** level_set_okz_compute_curvature.cc:151-170, 230-240: every nodal vector of a cell is replaced by its direction (the cell-wise
    normalization of shared nodes is the same in all cells) *)
Definition unit_field (s : lspace) (N : nfield) : nfield := fun j => normalize_nodal s (N j).
(** FEEvaluation::get_divergence, lines 172-207 (dim > 1) *)
Definition divergence (s : lspace) (p : lpoint) (N : nfield) : R := sumn (l_dim s) (fun d => lgradient s p (fun j => N j d) d).
(** lines 211-258: rhs; cells in which all normals were set to zero are skipped, which adds the same zero *)
Definition curvature_rhs (s : lspace) (pts : list lpoint) (N : nfield) : lvec :=
  lintegrate s pts (fun p => - divergence s p (unit_field s N)) (fun _ _ => 0).
(** lines 362-380 and 382: pointwise correction of the projected curvature, then constraints *)
Definition corrected (s : lspace) (correction : bool) (eps : R) (c k : lvec) : lvec :=
  ldistribute s (fun i => if correction then correct_curvature (l_dim s) eps (c i) (k i) else k i).

(** level_set_okz.cc:201-211, level_set_okz_matrix.cc:58-68: initial level set profile *)
Definition ls_transform (epsilon_used d : R) : R := - tanh (d / (2 * epsilon_used)).
