(** * Model of the level set functions on nodes and quadrature points
    include/adaflo/level_set_base.h:119-160 (discrete_heaviside, discrete_delta), source/level_set_okz.cc:473-540
    (compute_heaviside), 325-408 (local_compute_force), source/phase_field_local.cc:73-92, include/adaflo/sharp_interface.h:940-977.

    Simplifications: exact real arithmetic; the finite element evaluation is the sum of nodal values times shape values. *)
From Coq Require Import Reals List Bool Ratan.
From Verif Require Import SumR Model_Bubble.
Import ListNotations.
Open Scope R_scope.

(** level_set_base.h:119-143 [discrete_heaviside]; the recursive call has a negative argument *)
Definition heaviside_left (x : R) : R :=
  1/8 * (5 * x + x * x) + 1/32 * (-3 - 2 * x) * sqrt (-7 - 12 * x - 4 * x * x) - 1/16 * asin (sqrt 2 * (x + 3/2)) + 23/32 - PI / 64.
Definition heaviside_right (x : R) : R :=
  1/8 * (3 * x + x * x) - 1/32 * (-1 - 2 * x) * sqrt (1 - 4 * x - 4 * x * x) + 1/16 * asin (sqrt 2 * (x + 1/2)) + 15/32 - PI / 64.
Definition heaviside_nonpos (x : R) : R :=
  if Rltb x (-2) then 0 else if Rltb x (-1) then heaviside_left x else heaviside_right x.
Definition discrete_heaviside (x : R) : R := if Rltb 0 x then 1 - heaviside_nonpos (- x) else heaviside_nonpos x.
(** level_set_base.h:146-158 [discrete_delta] *)
Definition delta_nonpos (x : R) : R :=
  if Rltb x (-2) then 0
  else if Rltb x (-1) then 1/8 * (5 + 2 * x - sqrt (-7 - 12 * x - 4 * x * x))
  else 1/8 * (3 + 2 * x + sqrt (1 - 4 * x - 4 * x * x)).
Definition discrete_delta (x : R) : R := if Rltb 0 x then delta_nonpos (- x) else delta_nonpos x.

(** ** compute_heaviside, level_set_okz.cc:473-540 *)
(** line 477 *)
Definition cutoff : R := tanh 2.
(** lines 502-519: value for one node of a considered cell; scale = epsilon * 2 / concentration_subdivisions *)
Definition node_distance (c_val : R) : R :=
  if Rltb c_val (- cutoff) then -3 else if Rltb cutoff c_val then 3 else ln ((1 + c_val) / (1 - c_val)).
Definition heaviside_scale (epsilon subdivisions : R) : R := epsilon * 2 / subdivisions.
Definition node_heaviside (scale c_val : R) : R := discrete_heaviside (node_distance c_val * scale).
(** lines 492-499 *)
Definition consider_cell (c : nat -> R) (dofs : list nat) : bool := existsb (fun i => Rltb (Rabs (c i)) cutoff) dofs.
(** writing a nodal value *)
Definition set_node (h : nat -> R) (i : nat) (v : R) : nat -> R := fun j => if Nat.eqb j i then v else h j.
(** lines 488-538: one locally owned cell with the dof indices [dofs] *)
Definition heaviside_cell (scale : R) (c : nat -> R) (h : nat -> R) (dofs : list nat) : nat -> R :=
  if consider_cell c dofs then fold_left (fun h i => set_node h i (node_heaviside scale (c i))) dofs h
  else match dofs with
       | [] => h
       | d0 :: _ => if Rltb (c d0) 0 then fold_left (fun h i => set_node h i 0) dofs h else fold_left (fun h i => set_node h i 1) dofs h
       end.
Definition compute_heaviside (scale : R) (c : nat -> R) (cells : list (list nat)) (h : nat -> R) : nat -> R :=
  fold_left (heaviside_cell scale c) cells h.

(** ** Material parameters at quadrature points *)
(** FEEvaluation::get_value: sum of nodal values times shape values *)
Definition fe_value (n : nat) (nodal shape : nat -> R) : R := sumn n (fun j => nodal j * shape j).
(** level_set_okz.cc:356-361; density case, the viscosity has the same formula *)
Definition mixture (base diff indicator : R) : R := base + diff * indicator.
Definition okz_property (base diff : R) (n : nat) (heaviside shape : nat -> R) : R := mixture base diff (fe_value n heaviside shape).
(** phase_field_local.cc:82-91: clipped *)
Definition phase_field_property (base diff : R) (n : nat) (ls shape : nat -> R) : R :=
  mixture base diff (Rmin 1 (Rmax 0 (5/10 * (fe_value n ls shape + 1)))).
(** sharp_interface.h:964-972 *)
Definition sharp_interface_property (base diff : R) (n : nat) (ls shape : nat -> R) : R := mixture base diff ((fe_value n ls shape + 1) / 2).
(** level_set_base.cc:418-447 [compute_density_on_faces]: value of the Heaviside field at the face center *)
Definition face_density (base diff : R) (n : nat) (heaviside shape : nat -> R) : R := base + fe_value n heaviside shape * diff.
