(** * C128: memory_consumption() against the printed memory table of the flow solver *)
From Coq Require Import String NArith List Bool Lia.
From Verif Require Import Model_MemoryReport.
Import ListNotations.
Open Scope N_scope.

(** ** Specification: which object the report is about, with the bytes it occupies *)
Inductive object :=
| Dofs | CellData | Constraints | LinearizedVelocities | LinearizedVelocitiesCopy | Coefficients | CoefficientsCopy
| VelocityMatrix | PressureMatrices | PressureDiagonal | VelocityPreconditioner | PoissonPreconditioner | Vectors.
Definition all_objects := [Dofs; CellData; Constraints; LinearizedVelocities; LinearizedVelocitiesCopy; Coefficients; CoefficientsCopy;
  VelocityMatrix; PressureMatrices; PressureDiagonal; VelocityPreconditioner; PoissonPreconditioner; Vectors].
Definition occupied (a : array) : N := header a + allocated a * element a.
Definition bytes (f : flow) (x : object) : N :=
  let o := f_operator f in let c := f_preconditioner f in
  match x with
  | Dofs => f_dof_u f + f_dof_p f
  | CellData => f_matrix_free f
  | Constraints => f_constraints_u f + f_constraints_p f + f_hanging_u f + f_hanging_p f
  | LinearizedVelocities => occupied (o_linearized o)
  | LinearizedVelocitiesCopy => occupied (o_linearized_prec o)
  | Coefficients => occupied (o_densities o) + occupied (o_viscosities o) + occupied (o_damping o)
  | CoefficientsCopy => occupied (o_densities_prec o) + occupied (o_viscosities_prec o) + occupied (o_damping_prec o)
  | VelocityMatrix => c_matrix_u c
  | PressureMatrices => c_matrix_p c + c_mass_matrix_p c
  | PressureDiagonal => c_pressure_diagonal c
  | VelocityPreconditioner => if c_ilu c || c_ilu_scalar c then c_matrix_u c else match c_amg c with Some m => m | None => 0 end
  | PoissonPreconditioner => match c_poisson c with Some m => m | None => 0 end
  | Vectors => 6 * f_rhs f
  end.
Definition total (f : flow) (xs : list object) : N := fold_right N.add 0 (map (bytes f) xs).
Definition printed (f : flow) (rank : N) : N := fold_right N.add 0 (map snd (flow_lines rank f)).

(** the arrays of the states an operator can be in: all sizes of [initialize], before and after the preconditioner was set up *)
Definition reachable (o : operator) : Prop :=
  exists size lanes h stored variable explicit,
    0 < size /\ 0 < lanes /\ 0 < h /\ 8 <= stored /\
    (o = operator_initialize size lanes h stored variable explicit \/ o = operator_fix (operator_initialize size lanes h stored variable explicit)).

Definition has_coefficients (f : flow) : bool := 0 <? used (o_viscosities (f_operator f)).
Definition has_copies (f : flow) : bool := 0 <? used (o_linearized_prec (f_operator f)).

Lemma sum_app a b : fold_right N.add 0 (a ++ b) = fold_right N.add 0 a + fold_right N.add 0 b.
Proof. induction a as [|x a IH]; cbn [app fold_right]; [lia|]. rewrite IH. lia. Qed.

(** The table of process 0 contains every object, each once, except the (then empty) coefficient arrays of a flow with constant
    coefficients; the others print nothing.  The labels are distinct, so that each line can be identified. *)
Theorem C128_table (f : flow) (rank : N) :
  reachable (f_operator f) ->
  (rank <> 0 -> flow_lines rank f = []) /\ NoDup (map fst (flow_lines rank f)) /\
  (rank = 0 ->
     printed f rank + (if has_coefficients f then 0 else total f [Coefficients; CoefficientsCopy]) = total f all_objects /\
     (has_coefficients f = false ->
        Forall (fun a => allocated a = 0) [o_densities (f_operator f); o_viscosities (f_operator f); o_damping (f_operator f);
          o_densities_prec (f_operator f); o_viscosities_prec (f_operator f); o_damping_prec (f_operator f)])).
Proof.
  intros (size & lanes & h & stored & variable & explicit & Hs & Hl & Hh & Hst & Ho). split; [|split].
  - intros E. unfold flow_lines. rewrite (proj2 (N.eqb_neq _ _) E). reflexivity.
  - unfold flow_lines, operator_lines, preconditioner_lines. destruct (rank =? 0); [|constructor].
    destruct (0 <? used (o_viscosities (f_operator f))), (c_ilu (f_preconditioner f) || c_ilu_scalar (f_preconditioner f)), (c_amg (f_preconditioner f)), (c_poisson (f_preconditioner f));
      cbn -[N.eqb]; repeat (apply NoDup_cons; [cbn; intuition discriminate|]); apply NoDup_nil.
  - intros ->. split.
    + unfold printed, flow_lines, operator_lines, preconditioner_lines, has_coefficients, total, all_objects. change (0 =? 0) with true. cbv iota.
      rewrite !map_app, !sum_app.
      destruct (0 <? used (o_viscosities (f_operator f))), (c_ilu (f_preconditioner f) || c_ilu_scalar (f_preconditioner f)) eqn:Ei, (c_amg (f_preconditioner f)) eqn:Ea,
        (c_poisson (f_preconditioner f)) eqn:Ep;
        cbn [map app snd fold_right bytes]; rewrite ?Ei, ?Ea, ?Ep; unfold array_memory, occupied; lia.
    + unfold has_coefficients. intros E. apply N.ltb_ge in E.
      destruct Ho as [Ho|Ho]; rewrite Ho in *; destruct variable; cbn in E |- *; try lia; repeat constructor.
Qed.

(** The full property would be [total f all_objects <= flow_memory f].  Proved: this holds with constant coefficients as long as the scalar
    ILU is not used and nothing but the headers of empty or unallocated arrays is missing. *)
Definition headers (f : flow) : N :=
  let o := f_operator f in
  header (o_linearized_prec o) + header (o_densities o) + header (o_viscosities o) + header (o_damping o)
  + header (o_densities_prec o) + header (o_viscosities_prec o) + header (o_damping_prec o).
Theorem C128_total_partial (f : flow) :
  reachable (f_operator f) -> has_coefficients f = false -> has_copies f = false -> c_ilu_scalar (f_preconditioner f) = false ->
  total f all_objects <= flow_memory f + headers f.
Proof.
  intros (size & lanes & h & stored & variable & explicit & Hs & Hl & Hh & Hst & Ho) Hc Hk Hi.
  unfold has_coefficients, has_copies in *. apply N.ltb_ge in Hc, Hk.
  unfold total, all_objects, flow_memory, operator_memory, preconditioner_memory, headers. cbn [map fold_right bytes]. rewrite Hi, orb_false_r.
  destruct Ho as [Ho|Ho]; rewrite Ho in *; destruct variable, explicit; cbn in Hc, Hk; try lia;
  unfold array_memory, occupied, operator_initialize, operator_fix, copy_array, empty_array, sized_array;
  cbn [o_linearized o_densities o_viscosities o_damping o_linearized_prec o_densities_prec o_viscosities_prec o_damping_prec used allocated element header];
  destruct (c_ilu (f_preconditioner f)), (c_amg (f_preconditioner f)), (c_poisson (f_preconditioner f)); lia.
Qed.

(** What memory_consumption() leaves out once the preconditioner was set up: all but one byte for each entry of the copies and the
    coefficients, and the damping coefficients altogether.  The missing memory grows with the mesh. *)
Theorem C128_violation_arrays (size lanes h stored : N) (explicit : bool) :
  0 < lanes -> 0 < stored ->
  let o := operator_fix (operator_initialize size lanes h stored true explicit) in
  fold_right N.add 0 (map occupied [o_linearized o; o_densities o; o_viscosities o; o_damping o;
    o_linearized_prec o; o_densities_prec o; o_viscosities_prec o; o_damping_prec o])
  = operator_memory o + 7 * h + (48 * lanes - 5) * size + (if explicit then 0 else stored * size - size).
Proof.
  intros Hl Hs o. unfold o, operator_memory, operator_fix, operator_initialize, copy_array, sized_array, empty_array, array_memory, occupied.
  destruct explicit; cbn [map fold_right o_linearized o_densities o_viscosities o_damping o_linearized_prec o_densities_prec o_viscosities_prec o_damping_prec used allocated element header];
    nia.
Qed.

(** Hence the total is below what the objects occupy by any margin, also below the sum of the printed numbers. *)
Definition sample (o : operator) (c : preconditioner) : flow := MkFlow 8 4000 2000 300 100 500 100 200 50 o c 100000 30000 70000.
Definition sample_prec (ilu ilu_scalar : bool) (matrix : N) : preconditioner := MkPreconditioner matrix 9000 8000 100 2000 300 1200 400 ilu ilu_scalar None (Some 16).
Theorem C128_violation_total (margin : N) : exists f, reachable (f_operator f) /\ flow_memory f + margin < total f all_objects /\ flow_memory f + margin < printed f 0.
Proof.
  set (o := operator_fix (operator_initialize (100000 + margin) 8 24 100 true false)).
  exists (sample o (sample_prec true false 50000)). assert (R : reachable o).
  { exists (100000 + margin), 8, 24, 100, true, false. repeat apply conj; try lia. right. reflexivity. }
  split; [exact R|].
  assert (T : flow_memory (sample o (sample_prec true false 50000)) + margin < total (sample o (sample_prec true false 50000)) all_objects).
  { assert (V := C128_violation_arrays (100000 + margin) 8 24 100 false ltac:(lia) ltac:(lia)). cbv zeta in V. fold o in V.
    cbn [map fold_right] in V. unfold total, all_objects, flow_memory. cbn [map fold_right bytes].
    unfold sample, sample_prec, preconditioner_memory.
    cbn [f_pointer f_dof_u f_dof_p f_fe_u f_fe_p f_constraints_u f_constraints_p f_hanging_u f_hanging_p f_operator f_preconditioner f_matrix_free f_rhs
         c_matrix_u c_matrix_p c_mass_matrix_p c_constraints_schur c_dof_handler_u_scalar c_constraints_u_scalar c_temp_vector c_pressure_diagonal c_ilu c_ilu_scalar c_amg c_poisson orb].
    lia. }
  split; [exact T|].
  destruct (C128_table (sample o (sample_prec true false 50000)) 0 R) as (_ & _ & H). destruct (H eq_refl) as [E _].
  assert (C : has_coefficients (sample o (sample_prec true false 50000)) = true).
  { unfold has_coefficients, o. cbn [sample f_operator operator_fix operator_initialize o_viscosities sized_array used]. apply N.ltb_lt. lia. }
  rewrite C, N.add_0_r in E. rewrite E. exact T.
Qed.

(** With the scalar ILU the table counts the factorization, the total does not, even for constant coefficients. *)
Theorem C128_violation_scalar_ilu (margin : N) : exists f, reachable (f_operator f) /\ has_coefficients f = false /\ has_copies f = false /\
  c_ilu_scalar (f_preconditioner f) = true /\ flow_memory f + headers f + margin < printed f 0.
Proof.
  set (o := operator_initialize 1000 8 24 100 false false). set (c := sample_prec false true (1000000 + margin)).
  exists (sample o c). repeat apply conj; try reflexivity.
  - exists 1000, 8, 24, 100, false, false. repeat apply conj; try lia. left. reflexivity.
  - unfold printed, flow_lines, operator_lines, preconditioner_lines, flow_memory, operator_memory, preconditioner_memory, headers, sample, c, sample_prec, o, operator_initialize, sized_array, empty_array, array_memory.
    cbn -[N.add N.mul N.ltb N.lt]. change (0 <? 0) with false. cbv iota. cbn -[N.add N.mul N.lt]. lia.
Qed.

(** the hypotheses of C128_table and C128_total_partial can be met, with a table of eight lines *)
Example C128_nonvacuous :
  let f := sample (operator_initialize 1000 8 24 100 false false) (sample_prec true false 50000) in
  reachable (f_operator f) /\ has_coefficients f = false /\ has_copies f = false /\ c_ilu_scalar (f_preconditioner f) = false /\
  flow_lines 0 f = [("DoFHandler"%string, 6000); ("Matrix-free objects"%string, 100000); ("Constraints"%string, 850);
    ("Linearized velocities"%string, 100048); ("Preconditioner matrices"%string, 67400); ("ILU preconditioner for uu block"%string, 50000);
    ("AMG preconditioner for pp block"%string, 16); ("Vectors"%string, 180000)] /\
  total f all_objects = 504458 /\ flow_memory f = 509898.
Proof.
  cbv zeta. split.
  - exists 1000, 8, 24, 100, false, false. repeat apply conj; try lia. left. reflexivity.
  - vm_compute. repeat split.
Qed.
Example C128_table_variable :
  let f := sample (operator_fix (operator_initialize 1000 8 24 100 true false)) (sample_prec true false 50000) in
  reachable (f_operator f) /\ has_coefficients f = true /\ printed f 0 = total f all_objects.
Proof.
  cbv zeta. split.
  - exists 1000, 8, 24, 100, true, false. repeat apply conj; try lia. right. reflexivity.
  - vm_compute. split; reflexivity.
Qed.

Print Assumptions C128_table.
Print Assumptions C128_total_partial.
Print Assumptions C128_violation_arrays.
Print Assumptions C128_violation_total.
Print Assumptions C128_violation_scalar_ilu.
