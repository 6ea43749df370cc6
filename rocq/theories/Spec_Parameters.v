(** * Specification of what a parameter file says, independent of the parser *)
From Coq Require Import ZArith List String.
From Verif Require Import Num Model_Parameters.

(** the value the user gave to entry [k]: the last assignment in the file, else the documented
    default [d] *)
Definition entry {N : Num} (f : pfile N) (k : string) (d : value N) : value N :=
  match find (fun e => String.eqb (fst e) k) (rev f) with
  | Some e => snd e
  | None => d
  end.
(** an [unsigned int] member holds the integer of the file (a negative one plus 2^32) *)
Definition holds_unsigned {N : Num} (f : pfile N) k (d m : Z) : Prop :=
  exists z, entry f k (VInt d) = VInt z /\ ((0 <= z)%Z -> m = z) /\ ((z < 0)%Z -> m = (z + 4294967296)%Z).
(** a [bool] member set by [entry > 0] *)
Definition holds_positive {N : Num} (f : pfile N) k (d : Z) (m : bool) : Prop :=
  exists z, entry f k (VInt d) = VInt z /\ (m = true <-> (0 < z)%Z).
(** a [bool] member set by conversion of the integer *)
Definition holds_nonzero {N : Num} (f : pfile N) k (d : Z) (m : bool) : Prop :=
  exists z, entry f k (VInt d) = VInt z /\ (m = true <-> z <> 0%Z).
