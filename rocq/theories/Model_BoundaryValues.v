(** * Boundary conditions of the velocity and pressure as the flow solver imposes them
    source/navier_stokes.cc:228-345 (initialize_data_structures: constraints), 1216-1318 (apply_boundary_conditions), 643 (constraints on the
    update), 817-870 (solution += solution_update).

    Simplifications: exact real arithmetic, one process (in_local_range is true, ghost values up to date); constraints are homogeneous
    (checked by the code, lines 341-343) and given by their resolved lines; the list of boundary faces with their unknowns, positions and
    quadrature is an input; VectorTools::interpolate_boundary_values goes through the faces in the given order and writes every unknown
    of a face with a listed id, so the last face wins. *)
From Coq Require Import Reals List Bool Arith.
From Verif Require Import SumR.
Import ListNotations.
Open Scope R_scope.

(** AffineConstraints: None for a free unknown, otherwise masters and weights *)
Notation lines := (nat -> option (list (nat * R))).
(** AffineConstraints::distribute *)
Definition distribute (con : lines) (u : nat -> R) : nat -> R :=
  fun i => match con i with None => u i | Some l => suml l (fun mw => snd mw * u (fst mw)) end.
Definition is_free (con : lines) (i : nat) : bool := match con i with None => true | Some _ => false end.

(** a boundary face: id, unknowns on it as (index, position, component) *)
Section Functions.
Context {point : Type}.
Record bface := MkBFace { bf_id : nat; bf_dofs : list (nat * point * nat) }.
(** functions of time, position and component *)
Notation vfunction := (R -> point -> nat -> R).
(** the registered conditions *)
Record conditions := MkConditions { dirichlet_conditions : nat -> option vfunction; no_slip_ids : nat -> bool }.

(** lines 301-340: homogeneous Dirichlet lines for all unknowns of Dirichlet and no-slip faces that have no line yet; close() removes
    masters that are constrained to zero *)
Definition is_dirichlet_id (c : conditions) (id : nat) : bool :=
  no_slip_ids c id || match dirichlet_conditions c id with Some _ => true | None => false end.
Definition on_dirichlet (c : conditions) (faces : list bface) (i : nat) : bool :=
  existsb (fun f => is_dirichlet_id c (bf_id f) && existsb (fun d => Nat.eqb (fst (fst d)) i) (bf_dofs f)) faces.
Definition constraints_u (c : conditions) (faces : list bface) (hanging : lines) : lines :=
  fun i => match hanging i with
           | Some l => Some (filter (fun mw => negb (is_free hanging (fst mw) && on_dirichlet c faces (fst mw))) l)
           | None => if on_dirichlet c faces i then Some [] else None
           end.

(** lines 1219-1240: dirichlet_u, the no-slip ids overwrite; set_time(now()) *)
Definition imposed_function (c : conditions) (time : R) (id : nat) : option (point -> nat -> R) :=
  if no_slip_ids c id then Some (fun _ _ => 0)
  else match dirichlet_conditions c id with Some f => Some (f time) | None => None end.
(** lines 1241-1245: the map boundary_values *)
Definition write_dofs (f : point -> nat -> R) (l : list (nat * point * nat)) (m : nat -> option R) : nat -> option R :=
  fold_left (fun m d => fun i => if Nat.eqb (fst (fst d)) i then Some (f (snd (fst d)) (snd d)) else m i) l m.
Definition boundary_values (c : conditions) (time : R) (faces : list bface) : nat -> option R :=
  fold_left (fun m fc => match imposed_function c time (bf_id fc) with Some f => write_dofs f (bf_dofs fc) m | None => m end) faces (fun _ => None).
(** lines 1246-1253 *)
Definition apply_boundary_conditions_u (c : conditions) (time : R) (faces : list bface) (hanging : lines) (u : nat -> R) : nat -> R :=
  distribute hanging (fun i => match boundary_values c time faces i with Some v => v | None => u i end).
(** lines 643 and 840: one nonlinear iteration with an arbitrary result [x] of the linear solver *)
Definition newton_update (c : conditions) (faces : list bface) (hanging : lines) (x u : nat -> R) : nat -> R :=
  fun i => u i + distribute (constraints_u c faces hanging) x i.
Fixpoint newton_updates (c : conditions) (faces : list bface) (hanging : lines) (xs : list (nat -> R)) (u : nat -> R) : nat -> R :=
  match xs with [] => u | x :: xs => newton_updates c faces hanging xs (newton_update c faces hanging x u) end.

(** ** Open boundaries, lines 1259-1317 *)
(** a quadrature point of a boundary face: JxW, outer normal, position, velocity shape functions *)
Record fqpoint := MkFQ { fq_JxW : R; fq_normal : nat -> R; fq_pos : point; fq_phi : nat -> nat -> R }.
(** a boundary face of a cell: id, unknowns of the cell, points *)
Record oface := MkOFace { of_id : nat; of_n : nat; of_dof : nat -> nat; of_pts : list fqpoint }.
(** open_conditions_p *)
Notation open_conditions := (nat -> option (R -> point -> R)).
(** lines 1299-1307 *)
Definition cell_rhs (dim : nat) (p : point -> R) (f : oface) (i : nat) : R :=
  suml (of_pts f) (fun q => sumn dim (fun d => fq_phi q i d * fq_normal q d) * p (fq_pos q) * fq_JxW q).
(** constraints_u.distribute_local_to_global *)
Definition expand (con : lines) (h : nat) : list (nat * R) := match con h with None => [(h, 1)] | Some l => l end.
Definition face_rhs (dim : nat) (con : lines) (p : point -> R) (f : oface) (g : nat) : R :=
  sumn (of_n f) (fun a => suml (expand con (of_dof f a)) (fun mw => if Nat.eqb (fst mw) g then snd mw * cell_rhs dim p f a else 0)).
(** [before] is the content of const_rhs; the vector is set to zero first (line 1259) *)
Definition const_rhs (dim : nat) (open : open_conditions) (time : R) (con : lines) (faces : list oface) (before : nat -> R) (g : nat) : R :=
  0 + suml faces (fun f => match open (of_id f) with Some p => face_rhs dim con (p time) f g | None => 0 end).
End Functions.
Arguments bface : clear implicits. Arguments conditions : clear implicits. Arguments oface : clear implicits. Arguments fqpoint : clear implicits.
