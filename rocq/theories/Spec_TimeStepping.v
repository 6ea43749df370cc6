(** * Specification vocabulary for the time stepping properties (independent of the model's
    helpers: only public getters and call histories are used) *)
From Coq Require Import ZArith QArith Reals Bool List Lra.
From Verif Require Import Num Model_TimeStepping.
Import ListNotations.

(** calls that only advance the clock or change the step size *)
Definition plain_op {N} (o : op N) : bool :=
  match o with Next | SetTimeStep _ | SetDesired _ => true | _ => false end.
Definition plain {N} (h : list (op N)) : Prop := forallb plain_op h = true.

(** calls that do not move the time interval *)
Definition keeps_interval_op {N} (o : op N) : bool :=
  match o with SetStart _ | SetFinal _ => false | _ => true end.
Definition keeps_interval {N} (h : list (op N)) : Prop := forallb keeps_interval_op h = true.

(** documented precondition of next() (Assert in time_stepping.cc:126): the end is not reached *)
Fixpoint legal {N : Num} (c : clock N) (h : list (op N)) : Prop :=
  match h with
  | [] => True
  | o :: t => (o = Next -> at_end c = false) /\ legal (apply_op c o) t
  end.

(** sizes of the steps taken during a history *)
Fixpoint steps_taken {N : Num} (c : clock N) (h : list (op N)) : list N :=
  match h with
  | [] => []
  | o :: t =>
      match o with
      | Next => step_size (apply_op c o) :: steps_taken (apply_op c o) t
      | _ => steps_taken (apply_op c o) t
      end
  end.
Fixpoint number_of_next {N : Num} (h : list (op N)) : nat :=
  match h with
  | [] => O
  | Next :: t => S (number_of_next t)
  | _ :: t => number_of_next t
  end.

Local Open Scope R_scope.
Definition Rsum (l : list R) : R := fold_right Rplus 0 l.

(** polynomial of degree two in time and its derivative *)
Definition quad (a b d : R) (t : R) : R := a + b * t + d * (t * t).
Definition quad' (a b d : R) (t : R) : R := b + 2 * d * t.

(** the user's time loop with an arbitrary adaptive time step request in front of each step:
    [ds k = Some d] means set_desired_time_step(d) is called before the (k+1)-th next() *)
Definition request (c : clock RNum) (d : option R) : clock RNum :=
  match d with Some v => set_desired_time_step c v | None => c end.
Definition adaptive_step (c : clock RNum) (d : option R) : clock RNum := next (request c d).
Fixpoint time_loop (ds : nat -> option R) (n : nat) (c : clock RNum) : clock RNum :=
  match n with
  | O => c
  | S m => adaptive_step (time_loop ds m c) (ds m)
  end.

(** [clamp lo hi x]: the point of the interval closest to x (used with lo <= hi) *)
Definition is_clamp (lo hi x y : R) : Prop :=
  lo <= y <= hi /\ (lo <= x <= hi -> y = x) /\ (x < lo -> y = lo) /\ (hi < x -> y = hi).

(** sensible parameters and requests *)
Definition well_posed (p : ts_params RNum) : Prop :=
  0 < tp_step_start p /\ 0 < tp_step_max p /\ 0 < tp_step_min p /\ tp_start p < tp_end p.
Definition positive_requests (h : list (op RNum)) : Prop :=
  Forall (fun o : op RNum => match o with SetTimeStep v => 0 < v | _ => True end) h.
