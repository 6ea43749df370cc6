(** * Model of [adaflo::FlowBaseAlgorithm::write_data_output] (source/flow_base_algorithm.cc:222-279) *)
From Coq Require Import ZArith NArith QArith List String Ascii Decimal DecimalString DecimalN.
From Verif Require Import Num Model_TimeStepping.
Import ListNotations.
Open Scope string_scope.

Fixpoint zeros (n : nat) : string := match n with O => "" | S n => String "0" (zeros n) end.
(** deal.II Utilities::int_to_string(value, digits): decimal notation, padded with zeros on the left to
    at least [digits] characters *)
Definition to_string (v : N) : string := NilEmpty.string_of_uint (N.to_uint v).
Definition int_to_string (v : N) (digits : nat) : string :=
  let s := to_string v in
  if (String.length s <? digits)%nat then zeros (digits - String.length s) ++ s else s.

(** everything after / up to and including the last '/': lines 263-265,
    base_name.erase(0, base_name.find_last_of('/') + 1) *)
Definition has_slash (s : string) : bool := existsb (Ascii.eqb "/") (list_ascii_of_string s).
Fixpoint strip_directory (s : string) : string :=
  match s with
  | "" => ""
  | String c t => if has_slash s then strip_directory t else s
  end.

Section Output.
Context {N : Num}.

(** line 242: [unsigned int cycle = now / output_frequency + 0.51].  Simplification: results outside the
    range of int are treated as undefined ([None]). *)
Definition cycle (c : clock N) (frequency : N) : option BinNums.N :=
  match nint (nadd (ndiv (now c) frequency) (nlit (51#100))) with
  | Some z => if (0 <=? z)%Z then Some (Z.to_N z) else None
  | None => None
  end.

(** One call, as far as file names are concerned.  Arguments: the output base name, the cycle number, the
    number of digits computed in lines 235-240 with std::log10 (arbitrary here), number of processes,
    rank. *)
Record event := MkEvent { ev_name : string; ev_cycle : BinNums.N; ev_digits_steps : nat;
                          ev_digits_procs : nat; ev_n_procs : BinNums.N; ev_rank : BinNums.N }.
(** line 245 *)
Definition filename_time (e : event) : string :=
  ev_name e ++ "-" ++ int_to_string (ev_cycle e) (ev_digits_steps e).
(** lines 246-250; locally_owned_subdomain(tria) is the rank (util.h:37-45) *)
Definition vtu_name (e : event) : string :=
  (if (1 <? ev_n_procs e)%N
   then filename_time e ++ "-" ++ int_to_string (ev_rank e) (ev_digits_procs e)
   else filename_time e) ++ ".vtu".
(** line 274 *)
Definition pvtu_name (e : event) : string := filename_time e ++ ".pvtu".
(** lines 260-272 *)
Definition pvtu_record (e : event) : list string :=
  let base_name := if has_slash (filename_time e) then strip_directory (filename_time e)
                   else filename_time e in
  map (fun i => base_name ++ "-" ++ int_to_string (N.of_nat i) (ev_digits_procs e) ++ ".vtu")
      (seq 0 (N.to_nat (ev_n_procs e))).

Inductive content := Vtu | Pvtu (listed : list string).
(** the files (over)written by one call on one process *)
Definition files_written (e : event) : list (string * content) :=
  (vtu_name e, Vtu) ::
  (if (1 <? ev_n_procs e)%N && (ev_rank e =? 0)%N then [(pvtu_name e, Pvtu (pvtu_record e))] else []).
End Output.
