(** * Model of the micro fluidic program (applications/micro_particle.cc): the initial distance function,
      the velocities at the three inlets, the boundary ids and manifold ids given to the faces and the
      registered conditions *)
From stdpp Require Import gmap numbers list.
From Coq Require Import ZArith NArith Reals Bool List.
From Verif Require Import SumR Model_Boundary Model_Curvature.
Import ListNotations.
Open Scope R_scope.

(** real comparisons; the C++ comparisons are between doubles, rounding is not modelled *)
Definition mf_ltb (a b : R) : bool := if Rlt_dec a b then true else false.
Definition mf_leb (a b : R) : bool := if Rle_dec a b then true else false.

(** micro_particle.cc:64-82 InitialValuesLS::value: p.distance((0.5,...,0.5)) - 0.25; a point is the
    function of its coordinates 0 .. dim-1 *)
Definition initial_distance (dim : nat) (p : nat -> R) : R :=
  sqrt (sumn dim (fun d => (p d - 1 / 2) * (p d - 1 / 2))) - 1 / 4.

(** micro_particle.cc:119-142: the switch on boundary_ind_values; None is the exception in the default
    case *)
Definition inlet_profile (boundary_ind : nat) (component : nat) : option R :=
  match boundary_ind with
  | 1%nat => Some (if Nat.eqb component 0 then 1 / 2 else 0)
  | 2%nat => Some (if Nat.eqb component 0 then 0 else 1)
  | 3%nat => Some (if Nat.eqb component 0 then - 10 else 0)
  | _ => None
  end.

(** micro_particle.cc:143-147: the ramp in time applied to the value *)
Definition ramped (time v : R) : R :=
  if mf_leb time 0 then 0
  else if mf_ltb time (1 / 100) then v * sin (PI * time / (2 / 100))
  else v.

(** micro_particle.cc:111-149 BoundaryValuesVelocity::value (and, component by component, vector_value);
    the point does not enter *)
Definition inlet_velocity (boundary_ind : nat) (time : R) (p : nat -> R) (component : nat) : option R :=
  match inlet_profile boundary_ind component with
  | Some v => Some (ramped time v)
  | None => None
  end.

(** one face of a cell: whether it is at the boundary, its centre, boundary id and manifold id
    (numbers::flat_manifold_id is 4294967295) *)
Record mface := MkMFace { mf_boundary : bool; mf_centre : nat -> R; mf_id : N; mf_manifold : N }.
Definition with_id (b : N) (f : mface) : mface := MkMFace (mf_boundary f) (mf_centre f) b (mf_manifold f).
Definition with_manifold (b : N) (f : mface) : mface := MkMFace (mf_boundary f) (mf_centre f) (mf_id f) b.

(** std::fabs(x - a) < 1e-14 *)
Definition close (x a : R) : bool := mf_ltb (Rabs (x - a)) (1 / 100000000000000).
Definition between (a x b : R) : bool := mf_leb x b && mf_leb a x.

(** micro_particle.cc:239-286: the body of the loop over the faces in set_boundary_indicators *)
Definition mark_face (dim : nat) (f : mface) : mface :=
  let x := mf_centre f 0%nat in
  let y := mf_centre f 1%nat in
  let z := mf_centre f 2%nat in
  let f1 := if mf_boundary f && close x (- 2) then with_id 1 f else f in
  let f2 := if mf_boundary f && close x 3 then with_id 3 f1 else f1 in
  let f3 := if mf_boundary f && close y (- (1 / 2)) then with_id 2 f2 else f2 in
  let f4 := if mf_boundary f && close y 8 then with_id 4 f3 else f3 in
  let f5 :=
    if mf_boundary f then
      let g1 := if between (1 / 2) y (3 / 2) && between (- 1) x 0 then with_manifold 12 f4 else f4 in
      let g2 := if between (1 / 2) y (3 / 2) && between 1 x 2 then with_manifold 23 g1 else g1 in
      let g3 := if between (7 / 2) y (9 / 2) && between 1 x 2 then with_manifold 34 g2 else g2 in
      if between (7 / 2) y (9 / 2) && between (- 1) x 0 then with_manifold 41 g3 else g3
    else f4 in
  if Nat.eqb dim 3 then
    let h1 := if mf_boundary f && close z 0 then with_id 0 f5 else f5 in
    if mf_boundary f && close z 1 then with_id 0 h1 else h1
  else f5.
(** micro_particle.cc:234-288 set_boundary_indicators; a face is visited once from each of its cells, a
    boundary face once *)
Definition set_boundary_indicators (dim : nat) (faces : list mface) : list mface := map (mark_face dim) faces.

(** micro_particle.cc:350-396 set_all_boundary_conditions; the functions at the inlets are user functions
    1, 2 and 3 with dim components, the outer pressure is the constant 50 *)
Definition no_slip_calls : list call := [SetNoSlip 0%N; SetNoSlip 12%N; SetNoSlip 23%N; SetNoSlip 34%N; SetNoSlip 41%N].
Definition micro_calls (dim : N) (pressure_constraint : bool) : list call :=
  [SetVelocity 1%N (Some (UserFun 1 dim)) (- 1)%Z; SetVelocity 2%N (Some (UserFun 2 dim)) (- 1)%Z;
   SetVelocity 3%N (Some (UserFun 3 dim)) (- 1)%Z]
  ++ no_slip_calls
  ++ (if pressure_constraint then no_slip_calls else [])
  ++ [SetOpenNormal 4%N (Some (ConstFun 50 1)) 0%Z].

(** two_phase_base.cc:140-160 with level_set_okz.cc:203-211 or level_set_okz_matrix.cc:60-68: the level set
    value of a node after setup_problem *)
Definition initial_level_set (dim : nat) (epsilon_used : R) (p : nat -> R) : R :=
  ls_transform epsilon_used (initial_distance dim p).
