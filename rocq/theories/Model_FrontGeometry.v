(** * Geometry of the tracked front: normals, curvature and inside/outside test
    include/adaflo/sharp_interface_util.h:127-190, 435-536 [construct_polygon, within, compute_normal, compute_curvature] and
    include/adaflo/sharp_interface.h:503-540, 630-690 [FrontTrackingSolver: elements of degree 3, QGaussLobatto(degree + 1), update_phases].

    Curves in the plane (dim = 2; a cell of the surface is an interval).  Simplifications: real arithmetic; one process (the code
    loops over all cells without asking for the owner).  The reference element (deal.II's FE_Q) is a parameter; its numbering is not:
    FE_Q numbers the two vertices first and then the interior nodes, while a quadrature formula lists its points from left to right. *)
From Coq Require Import Reals List Arith Bool.
From Verif Require Import SumR.
Import ListNotations.
Open Scope R_scope.

(** degree, Gauss-Lobatto points (from left to right), Gauss points, derivatives of the shape functions, values of the shape functions *)
Record refel := MkRef { re_degree : nat; re_lobatto : nat -> R; re_gauss : list R; re_shape : R -> nat -> R; re_dshape : R -> nat -> R }.
(** FE_Q: position (from left to right) of local unknown i: vertices first *)
Definition hierarchic (degree i : nat) : nat := match i with O => 0%nat | S O => degree | S (S j) => S j end.
(** get_unit_support_points *)
Definition support (F : refel) (i : nat) : R := re_lobatto F (hierarchic (re_degree F) i).

(** a cell: global number of the node of local unknown i; nodal coordinates: node, component *)
Notation fcell := (nat -> nat).
Notation coords := (nat -> nat -> R).
(** MappingFEField: point and tangent at reference coordinate s *)
Definition curve_point (F : refel) (X : coords) (c : fcell) (s : R) (e : nat) : R := sumn (S (re_degree F)) (fun i => X (c i) e * re_shape F s i).
Definition tangent (F : refel) (X : coords) (c : fcell) (s : R) (e : nat) : R := sumn (S (re_degree F)) (fun i => X (c i) e * re_dshape F s i).
Definition speed2 (F : refel) (X : coords) (c : fcell) (s : R) : R := tangent F X c s 0 * tangent F X c s 0 + tangent F X c s 1 * tangent F X c s 1.
(** FEValues::normal_vector in codimension one: cross_product_2d(-tangent), normalized *)
Definition curve_normal (F : refel) (X : coords) (c : fcell) (s : R) (e : nat) : R :=
  (match e with O => - tangent F X c s 1 | _ => tangent F X c s 0 end) / sqrt (speed2 F X c s).

(** set_dof_values, cell by cell: later cells overwrite nodes they share *)
Definition store {A} (l : list (nat * A)) (v : nat -> A) : nat -> A :=
  fold_left (fun v na => fun g => if Nat.eqb g (fst na) then snd na else v g) l v.
Definition writes {A} (F : refel) (cells : list fcell) (value : fcell -> nat -> A) : list (nat * A) :=
  flat_map (fun c => map (fun i => (c i, value c i)) (seq 0 (S (re_degree F)))) cells.
(** sharp_interface_util.h:435-470: every unknown gets the component of the normal at its own support point *)
Definition compute_normal (F : refel) (X : coords) (cells : list fcell) (before : coords) : coords :=
  store (writes F cells (fun c i => fun e => curve_normal F X c (support F i) e)) before.
(** sharp_interface_util.h:514-530: divergence of the normal along the curve; gradient of a shape function: derivative * tangent / |tangent|^2 *)
Definition normal_divergence (F : refel) (X N : coords) (c : fcell) (s : R) : R :=
  sumn 2 (fun e => sumn (S (re_degree F)) (fun i => N (c i) e * (re_dshape F s i * tangent F X c s e / speed2 F X c s))).
(** sharp_interface_util.h:476-536: the value at quadrature point q goes to local unknown q *)
Definition compute_curvature (F : refel) (X N : coords) (cells : list fcell) (before : nat -> R) : nat -> R :=
  store (writes F cells (fun c q => normal_divergence F X N c (re_lobatto F q))) before.
(** sharp_interface.h:672-684: both vectors start from zero *)
Definition front_normals (F : refel) (X : coords) (cells : list fcell) : coords := compute_normal F X cells (fun _ _ => 0).
Definition front_curvature (F : refel) (X : coords) (cells : list fcell) : nat -> R :=
  compute_curvature F X (front_normals F X cells) cells (fun _ => 0).

(** ** Inside/outside *)
(** sharp_interface_util.h:127-161: the Gauss points of all cells, closed by the first point; [None]: front() of an empty vector *)
Definition construct_polygon (F : refel) (X : coords) (cells : list fcell) : option (list (R * R)) :=
  let points := flat_map (fun c => map (fun s => (curve_point F X c s 0, curve_point F X c s 1)) (re_gauss F)) cells in
  match points with [] => None | p :: _ => Some (points ++ [p]) end.
(** sharp_interface_util.h:163-190: only the first two coordinates of the point are used; [inside]: boost::geometry::within *)
Definition within (inside : list (R * R) -> R * R -> bool) (polygon : list (R * R)) (x : nat -> R) : bool := inside polygon (x 0%nat, x 1%nat).
(** sharp_interface.h:654-660 *)
Definition front_property (inside : list (R * R) -> R * R -> bool) (polygon : list (R * R)) (value diff : R) (x : nat -> R) : R :=
  value + diff * (if within inside polygon x then 1 else 0).
