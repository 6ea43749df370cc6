(** * Model of the records of statistics written by the example programs

    tests/rising_bubble.cc:157-205, applications/micro_particle.cc:470-525,
    tests/spurious_currents.cc:215-293 (the time loops; one text line of statistics per time step, kept in
    memory and moved to a text file at the output times).

    Simplifications.  The flow solver is represented by the sequence of calls it makes on the clock in one
    time step before [next] (arbitrary) and by the statistics it computes (arbitrary numbers).  The
    conversion of a number to text is an arbitrary function.  A file is the list of its lines; a line
    reaches the file with the std::endl that ends it.  Results of [static_cast<int>] outside the range of
    int are undefined ([None]) and stop the model. *)
From Coq Require Import ZArith NArith QArith List String Bool.
From Verif Require Import Num Model_TimeStepping Model_Output.
Import ListNotations.
Open Scope string_scope.

(** ** Files *)
Definition files := string -> option (list string).
(** What the program does to the file system: std::fstream(name, std::ios::out) creates or empties the
    file, std::fstream(name, std::ios::out | std::ios::app) creates it if needed, every inserted line goes
    to the end *)
Inductive action := Truncate (f : string) | Append (f : string) | Put (f : string) (line : string).
Definition on_files (fs : files) (a : action) : files := fun g =>
  match a with
  | Truncate f => if String.eqb g f then Some [] else fs g
  | Append f => if String.eqb g f then Some (match fs g with Some l => l | None => [] end) else fs g
  | Put f line => if String.eqb g f
                  then Some ((match fs g with Some l => l | None => [] end) ++ [line])%list else fs g
  end.
Definition perform (fs : files) (log : list action) : files := fold_left on_files log fs.

Section Record.
Context {N : Num}.
Variable text : N -> string.

(** one line of statistics; the first entry is the time, two_phase_base.cc:894,
    spurious_currents.cc:210 *)
Definition row : Type := list N.

(** rising_bubble.cc:194-200, micro_particle.cc:509-515, spurious_currents.cc:281-287 *)
Definition line_of (r : row) : string :=
  " " ++ fold_right (fun x s => text x ++ "   " ++ s) "" r.

(** the settings of a program: rank of the process, output frequency, header line (rising_bubble.cc:190-192,
    micro_particle.cc:505-507; none in spurious_currents.cc), file name for the current clock, how a new row
    enters the buffer *)
Record program := MkProgram {
  pr_rank : nat;
  pr_frequency : N;
  pr_header : option string;
  pr_file : clock N -> option string;
  pr_add : list row -> row -> list row }.

(** rising_bubble.cc:170, micro_particle.cc:483 *)
Definition push (buffer : list row) (r : row) : list row := (buffer ++ [r])%list.
(** spurious_currents.cc:213-216: two rows for the same time are joined *)
Definition push_or_join (buffer : list row) (r : row) : list row :=
  match rev buffer, r with
  | (t0 :: d0) :: before, t :: d =>
      if neqb t t0 then (rev before ++ [(t0 :: d0) ++ d])%list else push buffer r
  | _, _ => push buffer r
  end.

(** rising_bubble.cc:176 / micro_particle.cc:489 / spurious_currents.cc:262:
    [const int time_step = 1.000001e4 * step], printed with int_to_string(time_step, 4) *)
Definition step_number (step : N) : option BinNums.N :=
  match nint (nmul (nlit (10000010 # 1000)) step) with
  | Some z => if (0 <=? z)%Z then Some (Z.to_N z) else None
  | None => None
  end.

(** rising_bubble.cc:178-182: the file name contains the current step size *)
Definition rising_bubble_file (base : string) (adaptive global : BinNums.N) (c : clock N) : option string :=
  match step_number (step_size c) with
  | Some k => Some (base ++ "-" ++ int_to_string adaptive 1 ++ "-" ++ int_to_string global 3 ++ "-"
                         ++ int_to_string k 4 ++ ".txt")
  | None => None
  end.
(** micro_particle.cc:491-496: the maximal step size *)
Definition micro_particle_file (base : string) (adaptive global : BinNums.N) (c : clock N) : option string :=
  match step_number (max_step_size c) with
  | Some k => Some (base ++ "-" ++ int_to_string adaptive 0 ++ "-" ++ int_to_string global 0 ++ "-"
                         ++ int_to_string k 4 ++ ".txt")
  | None => None
  end.
(** spurious_currents.cc:264-273; [eps] and [sigma] are the integers (int)epsilon and
    (int)(100/surface_tension) *)
Definition spurious_currents_file (base : string) (eps sigma adaptive global : BinNums.N) (c : clock N) : option string :=
  match step_number (step_size c) with
  | Some k => Some (base ++ "-" ++ int_to_string eps 1 ++ "-" ++ int_to_string sigma 4 ++ "-"
                         ++ int_to_string adaptive 1 ++ "-" ++ int_to_string global 3 ++ "-"
                         ++ int_to_string k 4 ++ ".txt")
  | None => None
  end.

Definition bubble_header : string :=
  "#    time        area      perimeter   circularity   bubble_xvel   bubble_yvel   bubble_xpos    bubble_ypos".

Definition rising_bubble (rank : nat) (frequency : N) (base : string) (adaptive global : BinNums.N) : program :=
  MkProgram rank frequency (Some bubble_header) (rising_bubble_file base adaptive global) push.
Definition micro_particle (rank : nat) (frequency : N) (base : string) (adaptive global : BinNums.N) : program :=
  MkProgram rank frequency (Some bubble_header) (micro_particle_file base adaptive global) push.
Definition spurious_currents (rank : nat) (frequency : N) (base : string) (eps sigma adaptive global : BinNums.N) : program :=
  MkProgram rank frequency None (spurious_currents_file base eps sigma adaptive global) push_or_join.

(** the local variables of run(): the clock of the solver, [solution_data], [first_output]; and everything
    done to the file system so far *)
Record state := MkState { clk : clock N; buffer : list row; first_output : bool; log : list action }.

(** rising_bubble.cc:184-203, micro_particle.cc:499-519, spurious_currents.cc:275-290: open, write the
    header at the first time, write all rows *)
Definition write_block (p : program) (f : string) (first : bool) (rows : list row) : list action :=
  (if first then Truncate f else Append f) ::
  (if first then match pr_header p with Some h => [Put f h] | None => [] end else []) ++
  map (fun r => Put f (line_of r)) rows.

(** rising_bubble.cc:172-204, micro_particle.cc:485-520, spurious_currents.cc:258-291 *)
Definition output (p : program) (s : state) : option state :=
  match buffer s with
  | [] => Some s
  | _ :: _ =>
      if Nat.eqb (pr_rank p) 0 then
        match at_tick (clk s) (pr_frequency p) with
        | None => None
        | Some false => Some s
        | Some true =>
            match pr_file p (clk s) with
            | None => None
            | Some f => Some (MkState (clk s) [] false (log s ++ write_block p f (first_output s) (buffer s))%list)
            end
        end
      else Some s
  end.

(** one time step: the calls on the clock made by advance_time_step (and by the adaptive time step of the
    previous call of compute_bubble_statistics), and the statistics without the time *)
Definition step_data : Type := (list (op N) * list N)%type.

(** the body of the time loop, rising_bubble.cc:161-204, micro_particle.cc:476-522,
    spurious_currents.cc:250-292 (refine_grid does not touch the clock or the files) *)
Definition body (p : program) (d : step_data) (s : state) : option state :=
  let c := run (clk s) (fst d ++ [Next])%list in
  output p (MkState c (pr_add p (buffer s) (now c :: snd d)) (first_output s) (log s)).

(** the time loop [while (at_end() == false)] *)
Inductive execution (p : program) : state -> list step_data -> state -> Prop :=
| exec_done s : execution p s [] s
| exec_step s d s1 ds s2 : at_end (clk s) = false -> body p d s = Some s1 ->
    execution p s1 ds s2 -> execution p s (d :: ds) s2.

(** rising_bubble.cc:155-159, micro_particle.cc:469-474: the statistics of the initial state;
    spurious_currents.cc starts with an empty buffer *)
Definition start (c : clock N) (initial : option (list N)) : state :=
  MkState c (match initial with Some d => [now c :: d] | None => [] end) true [].
End Record.
Arguments program : clear implicits.
Arguments state : clear implicits.
Arguments row : clear implicits.
Arguments step_data : clear implicits.
