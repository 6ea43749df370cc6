(** * Model of the refinement indicators
    source/level_set_base.cc:333-409 (distance and look-ahead distance of a cell), source/phase_field.cc:498-517,
    source/two_phase_base.cc:344-384; the use of the indicators is in Model_Refinement.v.

    The level set indicator takes logarithms and divides by the length of the normal, both of which can be zero; it is
    therefore modelled in the exact real numbers extended by the special values of IEEE arithmetic.  Simplification: no rounding,
    one zero only (a positive number divided by it is +infinity). *)
From Coq Require Import ZArith QArith Reals Bool List.
From Verif Require Import Num Model_Refinement.
Import ListNotations.

(** real numbers with infinities and NaN *)
Inductive ext := Fin (x : R) | Pinf | Ninf | Enan.
Definition eopp (a : ext) : ext := match a with Fin x => Fin (- x) | Pinf => Ninf | Ninf => Pinf | Enan => Enan end.
Definition eadd (a b : ext) : ext :=
  match a, b with
  | Fin x, Fin y => Fin (x + y)
  | Enan, _ | _, Enan | Pinf, Ninf | Ninf, Pinf => Enan
  | Pinf, _ | _, Pinf => Pinf
  | Ninf, _ | _, Ninf => Ninf
  end.
(** infinity times a real number *)
Definition einf (x : R) : ext := if Rltb 0 x then Pinf else if Rltb x 0 then Ninf else Enan.
Definition emul (a b : ext) : ext :=
  match a, b with
  | Fin x, Fin y => Fin (x * y)
  | Enan, _ | _, Enan => Enan
  | Fin x, Pinf | Pinf, Fin x => einf x
  | Fin x, Ninf | Ninf, Fin x => eopp (einf x)
  | Pinf, Pinf | Ninf, Ninf => Pinf
  | _, _ => Ninf
  end.
Definition ediv (a b : ext) : ext :=
  match a, b with
  | Enan, _ | _, Enan => Enan
  | Fin x, Fin y => if Reqb y 0 then einf x else Fin (x / y)
  | Fin _, _ => Fin 0
  | Pinf, Fin y => if Rltb y 0 then Ninf else Pinf
  | Ninf, Fin y => if Rltb y 0 then Pinf else Ninf
  | _, _ => Enan
  end.
Definition eabs (a : ext) : ext := match a with Fin x => Fin (Rabs x) | Ninf => Pinf | _ => a end.
Definition eltb (a b : ext) : bool :=
  match a, b with
  | Fin x, Fin y => Rltb x y
  | Ninf, Fin _ | Ninf, Pinf | Fin _, Pinf => true
  | _, _ => false
  end.
Definition eeqb (a b : ext) : bool :=
  match a, b with Fin x, Fin y => Reqb x y | Pinf, Pinf | Ninf, Ninf => true | _, _ => false end.
Definition ENum : Num := {|
  car := ext; nadd := eadd; nsub := fun a b => eadd a (eopp b); nmul := emul; ndiv := ediv; nopp := eopp;
  nabs := eabs; nltb := eltb; neqb := eeqb; nlit := fun q => Fin (Q2R q);
  nint := fun a => match a with Fin x => int_range (Rtrunc x) | _ => None end |}.
(** std::log *)
Definition elog (a : ext) : ext :=
  match a with
  | Fin x => if Rltb 0 x then Fin (ln x) else if Rltb x 0 then Enan else Ninf
  | Pinf => Pinf | _ => Enan
  end.

(** Tensor<1,dim>: contraction and norm *)
Fixpoint tdot (u v : list R) : R := match u, v with x :: u, y :: v => x * y + tdot u v | _, _ => 0 end%R.
Definition tnorm (u : list R) : R := sqrt (tdot u u).

(** the data of one cell: the normal field at the 2^dim points, velocity and level set at the first point *)
Record indicator_data := MkData { id_gradients : list (list R); id_velocity_0 : list R; id_level_set_0 : R }.
(** lines 345-352 and 379-387 *)
Definition largest (grads : list (list R)) : R := fold_left (fun m g => nmax (N:=RNum) m (tnorm g)) grads 0%R.
Definition distance (epsilon : R) (d : indicator_data) : ext := elog (Fin (largest (id_gradients d) * epsilon)%R).
(** lines 389-393; ls_gradient keeps the value of the last point of the loop *)
Definition mod_distance (epsilon step_size : R) (d : indicator_data) : ext :=
  let ls_gradient := last (id_gradients d) [] in
  let direction := ediv (ediv (Fin (4 * step_size * tdot ls_gradient (id_velocity_0 d))%R) (Fin (tnorm ls_gradient))) (Fin epsilon) in
  eadd (distance epsilon d) (emul direction (Fin (id_level_set_0 d))).
(** a cell as seen by mark_level_set *)
Definition indicator_cell (level : Z) (f : flags) (epsilon step_size : R) (d : indicator_data) : cell ENum :=
  MkCell (N:=ENum) level f (Fin 0) [] (distance epsilon d) (mod_distance epsilon step_size d) [].
