(** * Model of the bubble statistics and of the adaptive time step
    source/two_phase_base.cc:443-458 (init_time_advance), 596-617 (set_adaptive_time_step), 621-968
    (TwoPhaseBaseAlgorithm<2>::compute_bubble_statistics), 972-1091 (the same for dim = 3).

    Simplifications: exact real arithmetic (in particular, c + 1e-22 is not absorbed by rounding); the finite element evaluation,
    the mapping and MPI are inputs. Output to the screen is left out. *)
From Coq Require Import Reals List Bool.
From Verif Require Import SumR Model_Indices.
Import ListNotations.
Open Scope R_scope.

Definition Rleb (x y : R) : bool := if Rle_dec x y then true else false.
Definition Rltb (x y : R) : bool := if Rlt_dec x y then true else false.

(** ** One sub-cell, lines 731-848 *)
(** line 742-763: position of the zero on an edge with end values a, b; -1 if there is none *)
Definition crossing (a b : R) : R := if Rleb (a * b) 0 then a / (a - b) else -1.
(** lines 732-740: values after adding 1e-22; c0..c3 at (0,0), (1,0), (0,1), (1,1) *)
Definition perturbation : R := / 10^22.
(** points with two coordinates *)
Definition pt : Type := (R * R)%type.
(** lines 743, 748, 753, 758: pos = quad[i] + (quad[j] - quad[i]) * r *)
Definition on_edge (p q : pt) (r : R) : pt := (fst p + (fst q - fst p) * r, snd p + (snd q - snd p) * r).
(** Tensor<1,2>::norm of the difference *)
Definition dist (p q : pt) : R := sqrt ((fst p - fst q) * (fst p - fst q) + (snd p - snd q) * (snd p - snd q)).
(** one of the six blocks of lines 767-834: local_area -= (c < 0) ? my_area : 1 - my_area, if the condition holds *)
Definition subtract_cut (s : R * list (pt * pt)) (cut : bool * R * R * (pt * pt)) : R * list (pt * pt) :=
  let '(cond, c, my_area, seg) := cut in
  if cond then (fst s - (if Rltb c 0 then my_area else 1 - my_area), snd s ++ [seg]) else s.
(** lines 765-838: area fraction and the list of interface segments (values of interface_p) of which the length is
    added to the perimeter, with the values after the perturbation; q0..q3: real positions of the corners *)
Definition local_area_segments (q0 q1 q2 q3 : pt) (c0 c1 c2 c3 : R) : R * list (pt * pt) :=
  let rx0 := crossing c0 c1 in let rx1 := crossing c2 c3 in let ry0 := crossing c0 c2 in let ry1 := crossing c1 c3 in
  let pos_x0 := on_edge q0 q1 rx0 in let pos_x1 := on_edge q2 q3 rx1 in let pos_y0 := on_edge q0 q2 ry0 in let pos_y1 := on_edge q1 q3 ry1 in
  let cuts := (* condition, corner value, my_area, interface_p *)
    [ (Rltb 0 rx0 && Rltb 0 ry0, c0, 5/10 * rx0 * ry0, (pos_x0, pos_y0));
      (Rltb 0 rx0 && Rltb 0 ry1, c1, 5/10 * (1 - rx0) * ry1, (pos_x0, pos_y1));
      (Rltb 0 rx0 && (Rltb 0 rx1 && Rltb ry0 0 && Rltb ry1 0), c0, 5/10 * (rx0 + rx1), (pos_x0, pos_x1));
      (Rltb 0 rx1 && Rltb 0 ry0, c2, 5/10 * rx1 * (1 - ry0), (pos_x1, pos_y0));
      (Rltb 0 rx1 && Rltb 0 ry1, c3, 5/10 * (1 - rx1) * (1 - ry1), (pos_x1, pos_y1));
      (Rltb 0 ry0 && Rltb 0 ry1 && Rltb rx0 0 && Rltb rx1 0, c0, 5/10 * (ry0 + ry1), (pos_y0, pos_y1)) ] in
  let s := fold_left subtract_cut cuts (1, []) in
  (if Rleb rx0 0 && Rleb rx1 0 && Rleb ry0 0 && Rleb ry1 0 && Rleb c0 0 then 0 else fst s, snd s).
Definition origin : pt := (0, 0).
Definition local_area (c0 c1 c2 c3 : R) : R := fst (local_area_segments origin origin origin origin c0 c1 c2 c3) (* does not depend on the positions *).

(** ** One cell, lines 717-860 *)
(** lines 658-666: weight_correction *)
Definition weight_correction (sub i : nat) : R :=
  let fact := (sub + 1)%nat in
  let n_q := (fact * fact)%nat in
  (if (0 <? i mod fact)%nat && (i mod fact <? fact - 1)%nat then 5/10 else 1) *
  (if (fact <=? i)%nat && (i <? n_q - fact)%nat then 5/10 else 1).
(** lines 724-729: index of point i of sub-cell d *)
Definition sub_index (sub d i : nat) : nat := (d mod sub + (d / sub) * (sub + 1) + (i / 2) * (sub - 1) + i)%nat.
(** what is known about one cell at the (sub+1)^2 points *)
Record cut_cell := MkCut { ct_c : nat -> R; ct_JxW : nat -> R; ct_x : nat -> nat -> R (* point, component *); ct_u : nat -> nat -> R }.
(** lines 849-858: sum over the sub-cells and their corners of g(point) * local_area * quad_weights *)
Definition cut_integral (sub : nat) (c : cut_cell) (g : nat -> R) : R :=
  sumn (sub * sub) (fun d =>
    let cv i := ct_c c (sub_index sub d i) + perturbation in
    sumn 4 (fun i => g (sub_index sub d i) *
      (local_area (cv 0%nat) (cv 1%nat) (cv 2%nat) (cv 3%nat) * (ct_JxW c (sub_index sub d i) * weight_correction sub (sub_index sub d i))))).

(** the segments of sub-cell d; the interface point recorded for the user is the last one (lines 774-838 overwrite interface_p) *)
Definition sub_segments (sub : nat) (c : cut_cell) (d : nat) : list (pt * pt) :=
  let cv i := ct_c c (sub_index sub d i) + perturbation in
  let q i : pt := (ct_x c (sub_index sub d i) 0%nat, ct_x c (sub_index sub d i) 1%nat) in
  snd (local_area_segments (q 0%nat) (q 1%nat) (q 2%nat) (q 3%nat) (cv 0%nat) (cv 1%nat) (cv 2%nat) (cv 3%nat)).
Definition cut_perimeter (sub : nat) (c : cut_cell) : R :=
  sumn (sub * sub) (fun d => suml (sub_segments sub c d) (fun s => dist (fst s) (snd s))).

(** an uncut cell, lines 692-715; points: JxW, position and velocity at the Gauss points; positive: sol_values(0) > 0 *)
Definition full_integral (has_area : bool) (points : list (R * (nat -> R) * (nat -> R))) (g : (nat -> R) -> (nat -> R) -> R) : R :=
  if has_area then suml points (fun p => let '(w, x, u) := p in g x u * w) else 0.
(** lines 684-691: the test with the nodal values *)
Definition interface_crosses_cell (sol_values : list R) : bool :=
  match sol_values with [] => false | s0 :: r => existsb (fun s => Rleb (s * s0) 0) r end.

(** ** Accumulation over the cells of a rank and over the ranks *)
(** a cell: nodal values of the level set, the points of the trapezoidal rule, the Gauss points *)
Record bcell := MkCell { b_values : list R; b_cut : cut_cell; b_points : list (R * (nat -> R) * (nat -> R)) }.
Record totals := MkTotals { t_area : R; t_perimeter : R; t_center : nat -> R; t_velocity : nat -> R }.
Definition zero_totals : totals := MkTotals 0 0 (fun _ => 0) (fun _ => 0).
(** the contribution of one cell, lines 684-860 *)
Definition cell_totals (sub : nat) (b : bcell) : totals :=
  if interface_crosses_cell (b_values b) then
    let c := b_cut b in
    MkTotals (cut_integral sub c (fun _ => 1)) (cut_perimeter sub c) (fun d => cut_integral sub c (fun i => ct_x c i d)) (fun d => cut_integral sub c (fun i => ct_u c i d))
  else
    let full := full_integral (Rltb 0 (hd 0 (b_values b))) (b_points b) in
    MkTotals (full (fun _ _ => 1)) 0 (fun d => full (fun x _ => x d)) (fun d => full (fun _ u => u d)).
Definition add_totals (s t : totals) : totals :=
  MkTotals (t_area s + t_area t) (t_perimeter s + t_perimeter t) (fun d => t_center s d + t_center t d) (fun d => t_velocity s d + t_velocity t d).
Definition rank_totals (sub : nat) (cells : list bcell) : totals := fold_left (fun s b => add_totals s (cell_totals sub b)) cells zero_totals.
(** Utilities::MPI::sum, lines 852-863: every quantity is summed over the ranks *)
Definition mpi_sum (l : list R) : R := fold_right Rplus 0 l.
Definition global_totals (ranks : list totals) : totals :=
  MkTotals (mpi_sum (map t_area ranks)) (mpi_sum (map t_perimeter ranks))
    (fun d => mpi_sum (map (fun t => t_center t d) ranks)) (fun d => mpi_sum (map (fun t => t_velocity t d) ranks)).
(** lines 896-905: the returned vector for dim = 2 (time, area, perimeter, circularity, velocity, center of mass) *)
Definition statistics (now : R) (g : totals) : list R :=
  [now; t_area g; t_perimeter g; 2 * sqrt (t_area g * PI) / t_perimeter g;
   t_velocity g 0%nat / t_area g; t_velocity g 1%nat / t_area g; t_center g 0%nat / t_area g; t_center g 1%nat / t_area g].
Definition compute_bubble_statistics (now : R) (sub : nat) (ranks : list (list bcell)) : list R :=
  statistics now (global_totals (map (rank_totals sub) ranks)).

(** ** Gathering the interface points on rank 0, lines 907-964 *)
(** an interface point: Tensor<2,2>, two points with two coordinates each; entry [d][e] *)
Definition ipoint := nat -> nat -> R.
Section Gather.
Variable dim : nat.
(** lines 927-935: send_data[j*2*dim + d*dim + e] *)
Definition send_data (pts : list ipoint) : option (list R) :=
  for_loop (length pts) (fun j => for_loop 2 (fun d => for_loop dim (fun e a =>
      match nth_error pts j with Some p => upd a (j * 2 * dim + d * dim + e)%nat (p d e) | None => None end)))
    (repeat 0 (2 * dim * length pts)).
(** lines 955-962: unpacking receive_count points *)
Definition receive (data : list R) (count : nat) : list ipoint :=
  map (fun j d e => nth (j * 2 * dim + d * dim + e)%nat data 0) (seq 0 count).
(** rank 0 receives from rank 1, 2, ... in this order; the other ranks are cleared (lines 937-940) *)
Definition gather (ranks : list (list ipoint)) : option (list (list ipoint)) :=
  match ranks with
  | [] => None (* a communicator has at least one rank *)
  | r0 :: rest =>
      match fold_left (fun acc r => match acc, send_data r with Some a, Some data => Some (a ++ receive data (length r)) | _, _ => None end) rest (Some r0) with
      | Some all => Some (all :: map (fun _ => []) rest)
      | None => None
      end
  end.
End Gather.

(** ** Adaptive time step, lines 598-617; h: minimal_edge_length, v: norm_velocity; std::pow(h, 1.5) = h sqrt(h) for h > 0 *)
Record two_phase_material := MkMat { density : R; density_diff : R; viscosity : R; viscosity_diff : R; surface_tension : R }.
Definition adaptive_time_step (cfl coef_2 : R) (m : two_phase_material) (h v : R) : R :=
  let rho_2 := viscosity_diff m + viscosity m in
  1 / (1 / (cfl * h / v) + 1 / (coef_2 * sqrt (rho_2 / surface_tension m) * (h * sqrt h))).

(** ** Extrapolation at the begin of a time step, lines 443-458; vectors as functions of the dof *)
Definition init_time_advance (step_size step_size_old : R) (solution solution_old : nat -> R) : (nat -> R) * (nat -> R) * (nat -> R) :=
  let solution_update : nat -> R :=
    if Rltb 0 step_size_old
    then fun i => (step_size + step_size_old) / step_size_old * solution i + - step_size / step_size_old * solution_old i
    else solution in
  (solution_update, solution, solution_old) (* new solution, solution_old, solution_old_old *).

(** ** dim = 3, lines 972-1091: per quadrature point JxW, heaviside value, |delta|, position, velocity *)
Record point3 := MkP3 { p3_JxW : R; p3_H : R; p3_delta : R; p3_x : nat -> R; p3_u : nat -> R }.
Definition rank_totals_3d (pts : list point3) : totals :=
  fold_left (fun s p => MkTotals (t_area s + p3_H p * p3_JxW p) (t_perimeter s + 5/10 * p3_delta p * p3_JxW p)
      (fun d => t_center s d + p3_x p d * p3_JxW p * p3_H p) (fun d => t_velocity s d + p3_u p d * p3_JxW p * p3_H p)) pts zero_totals.
Definition compute_bubble_statistics_3d (now : R) (ranks : list (list point3)) : list R :=
  let g := global_totals (map rank_totals_3d ranks) in
  let vol := t_area g in
  [now; vol; t_perimeter g; t_velocity g 0%nat / vol; t_velocity g 1%nat / vol; t_velocity g 2%nat / vol;
   t_center g 0%nat / vol; t_center g 1%nat / vol; t_center g 2%nat / vol;
   (Rpower PI (1/3) * Rpower (6 * vol) (2/3)) / t_perimeter g].
