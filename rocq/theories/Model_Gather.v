(** * Model of the collection of points on the first process

    applications/drivencavity.cc:266-325 and applications/periodic_channel.cc:178-237
    ([perform_data_exchange], the points of a line and the velocities there; called twice in a row by
    output_results, drivencavity.cc:218-219), source/two_phase_base.cc:903-966 (the points of the interface
    in compute_bubble_statistics).

    The processes run concurrently.  Modelled MPI behaviour: messages between two processes arrive in the
    order of sending; MPI_Send may or may not wait for the receiver, MPI_Gather on a process other than the
    root may or may not wait for the root.  [eager = false] is the library that always waits, with
    [eager = true] any single call may wait or not.  MPI_Recv with a buffer too short for the message is an
    error (no transition).  Simplification: several exchanges ("rounds") in a row are run without the
    computations in between; they do not communicate. *)
From Coq Require Import List Arith Bool Lia.
Import ListNotations.

(** ** Messages *)
Section Messages.
Context {V : Type}.
Variable zero : V.
Definition store (a : nat -> V) (kv : nat * V) : nat -> V := fun k => if Nat.eqb k (fst kv) then snd kv else a k.
(** a std::vector<double> of length [n] after a sequence of assignments to its entries *)
Definition filled (n : nat) (writes : list (nat * V)) : list V :=
  map (fold_left store writes (fun _ => zero)) (seq 0 n).

(** a point of drivencavity and periodic_channel: velocity (dim entries) and position *)
Definition line_point : Type := (list V * V)%type.
(** drivencavity.cc:292-299, periodic_channel.cc:202-209 *)
Definition line_send (dim : nat) (points : list line_point) : list V :=
  filled ((dim + 1) * length points)
    (flat_map (fun j => let p := nth j points ([], zero) in
       map (fun d => (j * (dim + 1) + d, nth d (fst p) zero)) (seq 0 dim) ++
       [(j * (dim + 1) + dim, snd p)]) (seq 0 (length points))).
(** drivencavity.cc:316-323, periodic_channel.cc:226-233 *)
Definition line_receive (dim count : nat) (data : list V) : list line_point :=
  map (fun j => (map (fun d => nth (j * (dim + 1) + d) data zero) (seq 0 dim),
                 nth (j * (dim + 1) + dim) data zero)) (seq 0 count).
Definition line_width (dim : nat) : nat := dim + 1.

(** a point of the interface: Tensor<2,dim>, of which two rows are used (dim = 2) *)
Definition surface_point : Type := list (list V).
(** two_phase_base.cc:928-932 *)
Definition surface_send (dim : nat) (points : list surface_point) : list V :=
  filled (2 * dim * length points)
    (flat_map (fun j => flat_map (fun d => map (fun e =>
       (j * 2 * dim + d * dim + e, nth e (nth d (nth j points []) []) zero)) (seq 0 dim)) (seq 0 2))
       (seq 0 (length points))).
(** two_phase_base.cc:955-962 *)
Definition surface_receive (dim count : nat) (data : list V) : list surface_point :=
  map (fun j => map (fun d => map (fun e => nth (j * 2 * dim + d * dim + e) data zero) (seq 0 dim)) (seq 0 2))
      (seq 0 count).
Definition surface_width (dim : nat) : nat := 2 * dim.
End Messages.

(** ** Processes *)
(** a process other than the first, in its current round: before MPI_Gather, inside MPI_Gather after
    handing over its number of points, before MPI_Send *)
Inductive place := BeforeGather | InGather | BeforeSend.

Section Exchange.
Context {A V : Type}.
Variable width : nat.
Variable encode : list A -> list V.
Variable decode : nat -> list V -> list A.
Variable drop : bool.         (* two_phase_base.cc:936-939: the senders give up their points *)
Variable eager : bool.
Variable n : nat.             (* number of processes *)
Variable points : nat -> list (list A).   (* process -> round -> its points *)

Record system := MkSystem {
  (* the first process *)
  m_round : nat;              (* rounds completed *)
  m_next : option nat;        (* None: before MPI_Gather; Some i: before MPI_Recv from i *)
  m_count : nat -> nat;       (* receive_count *)
  m_points : list A;          (* its vector in the current round *)
  m_results : list (list A);  (* its vectors after the completed rounds *)
  (* the others *)
  o_place : nat -> place;
  o_todo : nat -> list (list A);   (* the rounds that are not finished *)
  o_left : nat -> list (list A);   (* the vectors after the finished rounds *)
  (* the network *)
  q_count : nat -> list nat;       (* numbers on their way to the root of MPI_Gather *)
  q_data : nat -> list (list V)    (* messages on their way to the first process *) }.

Definition upd {B} (f : nat -> B) (r : nat) (x : B) : nat -> B := fun k => if Nat.eqb k r then x else f k.

Definition initial : system :=
  MkSystem 0 None (fun _ => 0) [] [] (fun _ => BeforeGather) points (fun _ => []) (fun _ => []) (fun _ => []).

(** the end of an iteration of the loop over i (drivencavity.cc:285, two_phase_base.cc:919), and of the
    round after the last one *)
Definition advance (s : system) (next : nat) (count : nat -> nat) (acc : list A)
    (place : nat -> place) (todo left : nat -> list (list A)) (qc : nat -> list nat) (qd : nat -> list (list V)) : system :=
  if Nat.ltb next n
  then MkSystem (m_round s) (Some next) count acc (m_results s) place todo left qc qd
  else MkSystem (S (m_round s)) None count [] (m_results s ++ [acc]) place todo left qc qd.

(** a process r >= 1 is done with a round *)
Definition sent (s : system) (r : nat) (l : list A) (rest : list (list A)) :=
  (upd (o_place s) r BeforeGather, upd (o_todo s) r rest,
   upd (o_left s) r (o_left s r ++ [if drop then [] else l])).

Inductive step (s : system) : system -> Prop :=
(* drivencavity.cc:274-284, two_phase_base.cc:909-918 on the others: hand over the number of points *)
| step_give r l rest : 1 <= r < n -> o_place s r = BeforeGather -> o_todo s r = l :: rest ->
    step s (MkSystem (m_round s) (m_next s) (m_count s) (m_points s) (m_results s)
              (upd (o_place s) r InGather) (o_todo s) (o_left s)
              (upd (q_count s) r (q_count s r ++ [length l])) (q_data s))
(* ... and return from MPI_Gather, if the library does not wait or if the root has the number *)
| step_leave r : 1 <= r < n -> o_place s r = InGather -> eager = true \/ q_count s r = [] ->
    step s (MkSystem (m_round s) (m_next s) (m_count s) (m_points s) (m_results s)
              (upd (o_place s) r BeforeSend) (o_todo s) (o_left s) (q_count s) (q_data s))
(* the root in MPI_Gather: takes one number from everybody *)
| step_gather : m_next s = None -> m_round s < length (points 0) -> (forall r, 1 <= r < n -> q_count s r <> []) ->
    step s (advance s 1 (fun r => hd 0 (q_count s r)) (nth (m_round s) (points 0) [])
              (o_place s) (o_todo s) (o_left s) (fun r => tl (q_count s r)) (q_data s))
(* drivencavity.cc:301, two_phase_base.cc:933-939: MPI_Send without waiting *)
| step_send r l rest : eager = true -> 1 <= r < n -> o_place s r = BeforeSend -> o_todo s r = l :: rest ->
    step s (let '(pl, td, lf) := sent s r l rest in
            MkSystem (m_round s) (m_next s) (m_count s) (m_points s) (m_results s) pl td lf
              (q_count s) (upd (q_data s) r (q_data s r ++ [encode l])))
(* drivencavity.cc:305-323, two_phase_base.cc:943-962: MPI_Recv of a message under way *)
| step_receive i msg more : m_next s = Some i -> q_data s i = msg :: more -> length msg <= width * m_count s i ->
    step s (advance s (S i) (m_count s) (m_points s ++ decode (m_count s i) msg)
              (o_place s) (o_todo s) (o_left s) (q_count s) (upd (q_data s) i more))
(* ... and of a message whose sender is waiting in MPI_Send *)
| step_both i l rest : m_next s = Some i -> q_data s i = [] -> 1 <= i < n -> o_place s i = BeforeSend ->
    o_todo s i = l :: rest -> length (encode l) <= width * m_count s i ->
    step s (let '(pl, td, lf) := sent s i l rest in
            advance s (S i) (m_count s) (m_points s ++ decode (m_count s i) (encode l)) pl td lf (q_count s) (q_data s)).

Inductive reachable : system -> Prop :=
| reach_initial : reachable initial
| reach_step s s' : reachable s -> step s s' -> reachable s'.

(** everybody is through *)
Definition finished (s : system) : Prop :=
  m_round s = length (points 0) /\ m_next s = None /\ forall r, 1 <= r < n -> o_todo s r = [].
End Exchange.
Arguments system : clear implicits.
