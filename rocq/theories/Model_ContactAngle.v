(** * Model of the contact angle condition of the Cahn-Hilliard solver
    source/phase_field.cc:76-86 (face_matrix), 140-178 (the list of wall faces), source/phase_field_local.cc:300-366
    (apply_contact_bc), 455-462 and 494-497 (where the terms go), source/parameters.cc:300-304.

    Simplifications: exact real arithmetic.  The mesh, the numbering, the constraints and the quadrature weights are inputs.  What
    deal.II does is modelled as documented: AffineConstraints::get_dof_values reads a constrained unknown as the combination of its
    masters (all inhomogeneities are zero here), distribute_local_to_global sends its contribution to the masters.  Shape functions
    are written out for faces of dimension one. *)
From Coq Require Import Reals List Bool Arith.
From Verif Require Import SumR Model_ProjectionMatrix Model_PhaseField.
Import ListNotations.
Open Scope R_scope.

(** ** Boundary ids and faces *)
(** FlowBaseAlgorithm: the sets no_slip and the keys of dirichlet_conditions_u *)
Record walls := MkWalls { no_slip : list nat; dirichlet : list nat }.
(** a face of a cell: at the boundary?, boundary id, JxW at the quadrature points, the unknowns *)
Record wface := MkWface { w_boundary : bool; w_id : nat; w_JxW : list R; w_dofs : list nat }.
(** the cells of a process: locally owned?, faces *)
Record wcell := MkWcell { w_owned : bool; w_faces : list wface }.
Definition mem (i : nat) (l : list nat) : bool := existsb (Nat.eqb i) l.

(** phase_field.cc:140-178: face_indices, face_JxW; line 177: face_evaluated_c has the size of face_JxW, initially zero *)
Record face_data := MkFaceData { fd_indices : list nat; fd_JxW : list R; fd_c : list R }.
Definition push_face (b : walls) (d : list nat * list R) (f : wface) : list nat * list R :=
  if w_boundary f && (mem (w_id f) (dirichlet b) || mem (w_id f) (no_slip b))
  then (fst d ++ w_dofs f, snd d ++ w_JxW f) else d.
Definition push_cell (b : walls) (d : list nat * list R) (c : wcell) : list nat * list R :=
  if w_owned c then fold_left (push_face b) (w_faces c) d else d.
Definition setup_faces (contact : R) (b : walls) (cells : list wcell) : face_data :=
  let d := if Req_EM_T contact 0 then ([], []) else fold_left (push_cell b) cells ([], []) in
  MkFaceData (fst d) (snd d) (map (fun _ => 0) (snd d)).

(** ** apply_contact_bc, phase_field_local.cc:300-366 *)
(** lines 325-328: read through the constraints *)
Definition get_dof (con : constraints) (src : nat -> R) (h : nat) : R := suml (expand con h) (fun mw => snd mw * src (fst mw)).
(** lines 355-358: added to dst.block(1) through constraints_curvature *)
Definition distribute_local (con : constraints) (idx : list nat) (loc : nat -> R) (dst : nat -> R) : nat -> R := fun g =>
  dst g + suml (combine (seq 0 (length idx)) idx) (fun ih => suml (expand con (snd ih)) (fun mw => if Nat.eqb (fst mw) g then snd mw * loc (fst ih) else 0)).
(** lines 329-347: value at a point, what is stored, what is tested *)
Definition at_point (residual : bool) (p : chpar) (v stored JxW : R) : R * R :=
  if residual then (v, ch_contact p * ch_sigma p * (75/100) * (v * v - 1) * JxW)
  else (stored, ch_contact p * ch_sigma p * (15/10) * v * stored * JxW).
(** one face: lines 323-361; [indices], [c_values] and [JxW] are pointers into the three arrays: modelled by the rest of the lists *)
Definition contact_face (residual : bool) (p : chpar) (con con_w : constraints) (fm : nat -> nat -> R) (idx : list nat) (JxW c : list R) (src dst : nat -> R)
  : (nat -> R) * list R :=
  let n := length idx in
  let loc := fun i => get_dof con src (nth i idx 0%nat) in
  let pts := map (fun q => at_point residual p (sumn n (fun i => loc i * fm i q)) (nth q c 0) (nth q JxW 0)) (seq 0 (length JxW)) in
  (distribute_local con_w idx (fun i => sumn (length JxW) (fun q => fm i q * snd (nth q pts (0, 0)))) dst, map fst pts).
(** lines 320-362: [dpf] dofs per face, [nq] quadrature points per face; the result is dst.block(1) and face_evaluated_c *)
Fixpoint contact_faces (n_faces dpf nq : nat) (residual : bool) (p : chpar) (con con_w : constraints) (fm : nat -> nat -> R)
    (idx : list nat) (JxW c : list R) (src dst : nat -> R) : (nat -> R) * list R :=
  match n_faces with
  | O => (dst, c)
  | S n =>
      let '(dst, c') := contact_face residual p con con_w fm (firstn dpf idx) (firstn nq JxW) (firstn nq c) src dst in
      let '(dst, c'') := contact_faces n dpf nq residual p con con_w fm (skipn dpf idx) (skipn nq JxW) (skipn nq c) src dst in
      (dst, c' ++ c'')
  end.
(** lines 307-319: nothing without contact angle; the number of faces and of points per face are computed from the arrays *)
Definition apply_contact_bc (residual : bool) (dpf : nat) (p : chpar) (con con_w : constraints) (fm : nat -> nat -> R) (d : face_data) (src dst : nat -> R)
  : (nat -> R) * face_data :=
  if Req_EM_T (ch_contact p) 0 then (dst, d)
  else
    let n_faces := (length (fd_indices d) / dpf)%nat in
    let nq := (length (fd_JxW d) / n_faces)%nat in
    let r := contact_faces n_faces dpf nq residual p con con_w fm (fd_indices d) (fd_JxW d) (fd_c d) src dst in
    (fst r, MkFaceData (fd_indices d) (fd_JxW d) (snd r)).

(** compress(VectorOperation::add), phase_field_local.cc:461 and 497: the contributions of all processes *)
Definition over_processes (l : list (nat -> R)) (g : nat) : R := suml l (fun v => v g).

(** ** Shape functions on a face of dimension one, phase_field.cc:79-86 *)
(** FE_Q_iso_Q1(n): hat functions on n equal parts, in lexicographic order *)
Definition hat (n i : nat) (x : R) : R := Rmax 0 (1 - Rabs (INR n * x - INR i)).
(** FE_Q(n): Lagrange polynomials *)
Definition lagrange (n : nat) (z : nat -> R) (i : nat) (x : R) : R :=
  fold_right (fun j acc => if Nat.eqb j i then acc else (x - z j) / (z i - z j) * acc) 1 (seq 0 (S n)).
(** the nodes of FE_Q(n), n <= 4: Gauss-Lobatto points *)
Definition node (n i : nat) : R :=
  match n, i with
  | 3%nat, 1%nat => (1 - 1 / sqrt 5) / 2
  | 3%nat, 2%nat => (1 + 1 / sqrt 5) / 2
  | 4%nat, 1%nat => (1 - sqrt (3 / 7)) / 2
  | 4%nat, 3%nat => (1 + sqrt (3 / 7)) / 2
  | _, _ => INR i / INR n
  end.
(** numbering of the unknowns of a line: the two vertices first, then the interior ones *)
Definition lexicographic (n i : nat) : nat := match i with O => 0 | 1%nat => n | S j => j end.
(** QIterated(QGauss(2), n) *)
Definition quad_point (n q : nat) : R :=
  (INR (q / 2) + (if Nat.even q then (1 - 1 / sqrt 3) / 2 else (1 + 1 / sqrt 3) / 2)) / INR n.
(** lines 81-86 *)
Definition face_matrix (n : nat) (i q : nat) : R := lagrange n (node n) (lexicographic n i) (quad_point n q).
