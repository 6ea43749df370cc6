(** * Model of the functions of the example and verification programs
    tests/beltrami.cc:53-170 [ExactSolutionU, ExactSolutionP], 433-439; tests/poiseuille.cc:50-107 [ExactSolutionU, ExactSolutionP];
    tests/phasefield_poiseuille.cc:44-151, 490-498 [InitialValuesLS, SimilarityVelocity]; tests/flow_past_cylinder.cc:57-87 and
    tests/flow_past_square_cylinder.cc:57-92 [InflowVelocity]; applications/drivencavity.cc:61-89, 330-340 [BoundaryVelocity, grid_transform];
    applications/periodic_channel.cc:61-86, 240-247, 252-275 [InitialChannel, grid_transform, local_compute_force].

    Simplifications: exact real arithmetic (numbers::PI is PI); comparisons with tolerances of the size of roundoff are comparisons
    with zero; values outside of the vector [Point<dim>] are not modelled. *)
From Coq Require Import Reals Arith.
Open Scope R_scope.

Notation point := (nat -> R).

(** ** tests/beltrami.cc *)
(** lines 88-89, 153-154; in ExactSolutionP d is always 2 a *)
Definition beltrami_a : R := PI / 4.
Definition beltrami_d (dim : nat) : R := (if Nat.eqb dim 3 then 2 else sqrt 2) * beltrami_a.
Definition beltrami_dp : R := 2 * beltrami_a.
(** lines 91-114; [None]: Assert(false) *)
Definition beltrami_u (dim : nat) (nu time : R) (p : point) (c : nat) : option R :=
  let a := beltrami_a in
  let d := beltrami_d dim in
  match dim with
  | 3%nat => match c with
     | 0%nat => Some (- a * (exp (a * p 0%nat) * sin (a * p 1%nat + d * p 2%nat) + exp (a * p 2%nat) * cos (a * p 0%nat + d * p 1%nat)) * exp (- nu * d * d * time))
     | 1%nat => Some (- a * (exp (a * p 1%nat) * sin (a * p 2%nat + d * p 0%nat) + exp (a * p 0%nat) * cos (a * p 1%nat + d * p 2%nat)) * exp (- nu * d * d * time))
     | 2%nat => Some (- a * (exp (a * p 2%nat) * sin (a * p 0%nat + d * p 1%nat) + exp (a * p 1%nat) * cos (a * p 2%nat + d * p 0%nat)) * exp (- nu * d * d * time))
     | _ => None
     end
  | 2%nat => match c with
     | 0%nat => Some (- a * cos (a * p 0%nat) * sin (a * p 1%nat) * exp (- 2 * nu * a * a * time))
     | 1%nat => Some (a * sin (a * p 0%nat) * cos (a * p 1%nat) * exp (- 2 * nu * a * a * time))
     | _ => None
     end
  | _ => None
  end.
(** lines 156-178 *)
Definition beltrami_p (dim : nat) (nu time : R) (p : point) : option R :=
  let a := beltrami_a in
  let d := beltrami_dp in
  match dim with
  | 3%nat => Some (- a * a * (1 / 2) *
      (exp (2 * a * p 0%nat) + exp (2 * a * p 1%nat) + exp (2 * a * p 2%nat) +
       2 * sin (a * p 0%nat + d * p 1%nat) * cos (a * p 2%nat + d * p 0%nat) * exp (a * (p 1%nat + p 2%nat)) +
       2 * sin (a * p 1%nat + d * p 2%nat) * cos (a * p 0%nat + d * p 1%nat) * exp (a * (p 2%nat + p 0%nat)) +
       2 * sin (a * p 2%nat + d * p 0%nat) * cos (a * p 1%nat + d * p 2%nat) * exp (a * (p 0%nat + p 1%nat))) *
      exp (- 2 * nu * d * d * time))
  | 2%nat => Some (- a * a * (1 / 4) * (cos (2 * a * p 0%nat) + cos (2 * a * p 1%nat)) * exp (- 4 * nu * a * a * time))
  | _ => None
  end.
(** lines 433-439: the start values: the velocity is created with ExactSolutionU<dim>(0.), whose argument is the viscosity *)
Definition beltrami_initial_u (dim : nat) (nu : R) (p : point) (c : nat) : option R := beltrami_u dim 0 0 p c.
Definition beltrami_initial_p (dim : nat) (nu : R) (p : point) : option R := beltrami_p dim nu 0 p.

(** ** tests/poiseuille.cc *)
(** lines 81-84 *)
Definition poiseuille_u (nu : R) (p : point) (c : nat) : R :=
  match c with 0%nat => 1 / 2 / nu * (1 - p 1%nat) * (1 + p 1%nat) | _ => 0 end.
(** line 106 *)
Definition poiseuille_p (p : point) : R := 2 - p 0%nat.

(** ** tests/phasefield_poiseuille.cc *)
(** line 58 and phase_field.cc:108: sign of the initial phase field *)
Definition initial_ls (center : R) (p : point) : R := - p 0%nat + center.
Definition initial_phase (epsilon center : R) (p : point) : R := - tanh (initial_ls center p / epsilon).
(** phase_field_local.cc:85-92: viscosity of a value of the phase field *)
Definition viscosity_of_phase (viscosity viscosity_diff phase : R) : R :=
  viscosity + viscosity_diff * Rmin 1 (Rmax 0 (1 / 2 * (phase + 1))).
(** lines 83-99: coefficients of a fluid: a, b, c, d *)
Record wedge := MkWedge { wa : R; wb : R; wc : R; wd : R }.
Definition wedge_denominator (ratio phi : R) : R :=
  let C := cos phi in let S := sin phi in let delta := phi - PI in
  (S * C - phi) * (delta * delta - S * S) + ratio * (delta - S * C) * (phi * phi - S * S).
Definition wedge_A (ratio phi : R) : wedge :=
  let C := cos phi in let S := sin phi in let delta := phi - PI in let D := wedge_denominator ratio phi in
  let c := S * S * (S * S - delta * phi + ratio * (phi * phi - S * S)) / D in
  let d := S * (C * (S * S - delta * phi + ratio * (phi * phi - S * S)) - PI * S) / D in
  MkWedge (-1 - PI * c - d) (- PI * d) c d.
Definition wedge_B (ratio phi : R) : wedge :=
  let C := cos phi in let S := sin phi in let delta := phi - PI in let D := wedge_denominator ratio phi in
  let c := S * S * (S * S - delta * delta + ratio * (delta * phi - S * S)) / D in
  let d := S * (C * (S * S - delta * delta + ratio * (delta * phi - S * S)) - ratio * PI * S) / D in
  MkWedge (-1 - d) 0 c d.
(** lines 138-147 *)
Definition v_radial (w : wedge) (theta : R) : R :=
  - ((wa w + theta * wc w + wd w) * cos theta - (wb w + theta * wd w - wc w) * sin theta).
Definition v_angular (w : wedge) (theta : R) : R := (wa w + theta * wc w) * sin theta + (wb w + theta * wd w) * cos theta.
(** lines 123-125; [x], [y]: coordinates after the scaling *)
Definition wedge_theta (x_wall x y : R) : R :=
  if Req_EM_T (y + 1 / 2) 0 then (if Rlt_dec (x - x_wall) 0 then PI else 0)
  else atan ((x_wall - x) / (y + 1 / 2)) + PI / 2.
(** lines 117-151 *)
Definition similarity_velocity (wall_velocity ratio phi shift scaling : R) (p : point) (c : nat) : R :=
  let x := p 0%nat / scaling in let y := p 1%nat / scaling in
  let theta := wedge_theta (shift / scaling) x y in
  let w := if Rlt_dec phi theta then wedge_A ratio phi else wedge_B ratio phi in
  let vr := v_radial w theta in let va := v_angular w theta in
  match c with
  | 0%nat => wall_velocity * (vr * cos theta - va * sin theta)
  | 1%nat => wall_velocity * (vr * sin theta + va * cos theta)
  | _ => 0
  end.
(** lines 494-499: viscosity ratio, contact angle (degrees), scaling two *)
Definition similarity_of_run (contact_velocity viscosity viscosity_diff angle_lower position : R) : point -> nat -> R :=
  similarity_velocity (- contact_velocity) (viscosity / (viscosity + viscosity_diff)) (PI * angle_lower / 180) position 2.

(** ** tests/flow_past_cylinder.cc:76-87 and tests/flow_past_square_cylinder.cc:76-92 *)
Definition channel_height : R := 41 / 100.
Definition inflow_maximum (dim : nat) : R := if Nat.eqb dim 2 then 3 / 2 else 9 / 4.
Definition inflow_velocity (dim : nat) (fluctuating : bool) (time : R) (p : point) (c : nat) : R :=
  match c with
  | 0%nat =>
     let coefficient := 4 ^ (dim - 1) * inflow_maximum dim / channel_height ^ (2 * dim - 2) in
     let v := coefficient * p 1%nat * (channel_height - p 1%nat) in
     let v := if Nat.eqb dim 3 then v * (p 2%nat * (channel_height - p 2%nat)) else v in
     if fluctuating then v * sin (time * PI / 8) else v
  | _ => 0
  end.

(** ** applications/drivencavity.cc:76-89 in three dimensions, 334-340 *)
Definition lid_velocity (p : point) (c : nat) : R :=
  if Req_EM_T (p 1%nat - 1) 0 then
    match c with 0%nat => 1 / 4 * (1 - cos (PI * 2 * p 0%nat)) * (1 - cos (PI * 2 * p 2%nat / 3)) | _ => 0 end
  else 0.
Definition cavity_depth : R := 3.
Definition cavity_transform (x : R) : R := 1 / 2 + 1 / 2 * tanh (2 * (2 * x - 1)) / tanh 2.

(** ** applications/periodic_channel.cc:76-86, 240-247, 263 *)
Definition initial_channel (p : point) (c : nat) : R :=
  let profile := 1 - p 1%nat * p 1%nat * p 1%nat * p 1%nat in
  match c with
  | 0%nat => profile * (5 / 4)
  | 1%nat => 1 / 5 * profile * cos (p 2%nat * 3)
  | 2%nat => 1 / 5 * profile * sin (p 2%nat * 3)
  | _ => 0
  end.
Definition channel_transform (y : R) : R := tanh (1 * (2 * y - 1)) / tanh 1.
Definition channel_force (c : nat) : R := match c with 0%nat => - (337204 / 100000000) | _ => 0 end.
