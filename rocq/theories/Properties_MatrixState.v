(** * Property theorems C27, C28, C29, C56: operator state, diagonal preconditioner, Poisson wrapper, pinned dof *)
From Coq Require Import Reals ZArith List Bool Lra Lia FunctionalExtensionality Sorted.
From Verif Require Import Model_MatrixState.
Import ListNotations.

(** ** C27: applying an operator leaves the matrix object as it was *)
Lemma nonempty_false {A} (l : list A) : nonempty l = false <-> l = [].
Proof. destruct l; split; intros; try discriminate; reflexivity. Qed.
Lemma nonempty_true {A} (l : list A) : nonempty l = true <-> l <> [].
Proof. destruct l; split; intros; try discriminate; try congruence; reflexivity. Qed.

(** exact characterizations: when is the state restored, and which fields are used *)
Theorem C27_velocity_vmult_restores :
  forall {A} (m : matrix A),
    (snd (velocity_vmult_state m) = m <-> (linearized (pre m) = [] -> linearized (cur m) = [])) /\
    fst (velocity_vmult_state m) = (if nonempty (linearized (pre m)) then pre m else cur m).
Proof.
  intros A [[l d v k] [l' d' v' k']]. unfold velocity_vmult_state; cbn.
  destruct l' as [|x l']; cbn; split; try reflexivity.
  - destruct l as [|y l]; cbn; split; intros H; auto.
    + inversion H.
    + specialize (H eq_refl). discriminate.
  - split; intros; [discriminate|reflexivity].
Qed.
Theorem C27_pressure_poisson_vmult_restores :
  forall {A} (m : matrix A),
    (snd (pressure_poisson_state m) = m <-> (densities (pre m) <> [] -> densities (cur m) <> [])) /\
    densities (fst (pressure_poisson_state m)) = (if nonempty (densities (pre m)) then densities (pre m) else densities (cur m)).
Proof.
  intros A [[l d v k] [l' d' v' k']]. unfold pressure_poisson_state; cbn.
  destruct d' as [|x d']; cbn; split; try reflexivity.
  - split; intros; auto.
  - destruct d as [|y d]; cbn; split; intros H; auto; try congruence; try (intros _ E; discriminate).
    exfalso. apply H; [discriminate|reflexivity].
Qed.
Theorem C27_pressure_mass_vmult_restores :
  forall {A} (m : matrix A),
    (snd (pressure_mass_state m) = m <-> (viscosities (pre m) = [] -> viscosities (cur m) = [])) /\
    viscosities (fst (pressure_mass_state m)) = (if nonempty (viscosities (pre m)) then viscosities (pre m) else viscosities (cur m)).
Proof.
  intros A [[l d v k] [l' d' v' k']]. unfold pressure_mass_state; cbn.
  destruct v' as [|x v']; cbn; split; try reflexivity.
  - destruct v as [|y v]; cbn; split; intros H; auto.
    + inversion H.
    + specialize (H eq_refl). discriminate.
  - split; intros; [discriminate|reflexivity].
Qed.

(** Histories. Specification: applications change nothing, residual and set_coefficients store what they are given, and
    compute remembers the current fields. *)
Definition pure_step {A} (a : action A) (s : fields A * fields A) : fields A * fields A :=
  match a with
  | Call (Residual l) => (MkFields (if nonempty (linearized (fst s)) then l else []) (densities (fst s)) (viscosities (fst s)) (dampings (fst s)), snd s)
  | Call (SetCoefficients d v k) => (MkFields (linearized (fst s)) d v k, snd s)
  | Call _ => s
  | Compute _ => (fst s, fst s)
  end.
Definition pure_run {A} (l : list (action A)) (s : fields A * fields A) := fold_left (fun s a => pure_step a s) l s.
(** [n] quadrature point batches; a field has n entries if it is in use and none otherwise *)
Definition sized {A} (n : nat) (explicit variable : bool) (f : fields A) : Prop :=
  length (linearized f) = (if explicit then 0 else n)%nat /\
  length (densities f) = (if variable then n else 0)%nat /\ length (viscosities f) = (if variable then n else 0)%nat /\
  length (dampings f) = (if variable then n else 0)%nat.
Definition well_sized {A} (n : nat) (explicit variable : bool) (a : action A) : Prop :=
  match a with
  | Call (Residual l) => length l = n
  | Call (SetCoefficients d v k) => sized n explicit variable (MkFields (repeat (hd_error d) (if explicit then 0 else n)) (map Some d) (map Some v) (map Some k))
  | _ => True
  end.

Lemma length_zero_nil {A} (l : list A) : length l = 0%nat <-> l = [].
Proof. destruct l; cbn; split; intros; try discriminate; reflexivity. Qed.

(** (re)initialization for a mesh with [n] points: after [clear] every field holds the constants of the parameter file
    and the preconditioner has no copies; without
    [clear] the entries of the previous mesh stay in place under their old numbers and only additional ones get the constants;
    the explicit scheme has no linearization point in either case *)
Theorem C27_initialize : forall {A} (n : nat) (variable explicit : bool) (lin0 rho0 mu0 d0 x : A) (m : matrix A),
  let f := cur (initialize n variable explicit lin0 rho0 mu0 d0 (clear m)) in
  let g := cur (initialize n variable explicit lin0 rho0 mu0 d0 m) in
  let field_ok on (old new : list A) (v : A) :=
    (on = true -> length new = n /\ forall i, (i < n)%nat -> nth i new x = if Nat.ltb i (length old) then nth i old x else v) /\ (on = false -> new = old) in
  pre (initialize n variable explicit lin0 rho0 mu0 d0 (clear m)) = no_fields /\ pre (initialize n variable explicit lin0 rho0 mu0 d0 m) = pre m /\
  linearized f = (if explicit then [] else repeat lin0 n) /\
  densities f = (if variable then repeat rho0 n else []) /\ viscosities f = (if variable then repeat mu0 n else []) /\
  dampings f = (if variable then repeat d0 n else []) /\
  field_ok (negb explicit) (linearized (cur m)) (linearized g) lin0 /\ field_ok variable (densities (cur m)) (densities g) rho0 /\
  field_ok variable (viscosities (cur m)) (viscosities g) mu0 /\ field_ok variable (dampings (cur m)) (dampings g) d0.
Proof.
  intros A n va ex lin0 rho0 mu0 d0 x m. cbv zeta.
  assert (R0 : forall v : A, resize n v [] = repeat v n) by (intros v; unfold resize; rewrite firstn_nil; cbn [app length]; f_equal; lia).
  assert (L : forall (v : A) old, length (resize n v old) = n).
  { intros v old. unfold resize. rewrite app_length, firstn_length, repeat_length. lia. }
  assert (E : forall (v : A) old i, (i < n)%nat -> nth i (resize n v old) x = if Nat.ltb i (length old) then nth i old x else v).
  { intros v old i Hi. unfold resize. destruct (Nat.ltb_spec i (length old)) as [H|H].
    - rewrite app_nth1 by (rewrite firstn_length; lia). rewrite <- (firstn_skipn n old) at 2. rewrite app_nth1 by (rewrite firstn_length; lia). reflexivity.
    - rewrite app_nth2 by (rewrite firstn_length; lia). rewrite (nth_indep _ x v) by (rewrite firstn_length, repeat_length; lia). apply nth_repeat. }
  destruct va, ex; cbn [cur initialize clear no_fields linearized densities viscosities dampings negb]; rewrite ?R0;
    (repeat split; intros; try discriminate; try reflexivity; try apply L; try (apply E; assumption)).
Qed.
(** with an AMG velocity preconditioner: every history of calls after the first compute *)
Theorem C27_amg_histories :
  forall {A} (n : nat) (explicit variable : bool) (m : matrix A) (d0 : bool) (l : list (action A)),
    sized n explicit variable (cur m) -> Forall (well_sized n explicit variable) l ->
    let m' := run true (Compute d0 :: l) m in
    (cur m', pre m') = pure_run l (cur m, cur m) /\ sized n explicit variable (cur m') /\ sized n explicit variable (pre m').
Proof.
  intros A n ex va m d0 l Hm Hl.
  assert (Inv : forall (l : list (action A)) c p, sized n ex va c -> sized n ex va p -> Forall (well_sized n ex va) l ->
    let m' := run true l (MkMatrix c p) in
    (cur m', pre m') = pure_run l (c, p) /\ sized n ex va (cur m') /\ sized n ex va (pre m')).
  { clear m d0 l Hm Hl. intros l. induction l as [|a l IH]; intros c p Hc Hp Hl; [cbn; auto|].
    inversion Hl as [|? ? Ha Hl']; subst.
    assert (E : exists c' p', act true a (MkMatrix c p) = MkMatrix c' p' /\ pure_step a (c, p) = (c', p') /\ sized n ex va c' /\ sized n ex va p').
    { destruct Hc as (C1 & C2 & C3 & C4). destruct Hp as (P1 & P2 & P3 & P4).
      destruct a as [[nl|d v k| | | |]|diag]; cbn [act step pure_step fst snd].
      - eexists _, _. split; [reflexivity|]. unfold residual_state; cbn. split.
        + f_equal. f_equal. destruct (nonempty (linearized c)) eqn:E; [reflexivity|]. apply nonempty_false in E. rewrite E; reflexivity.
        + split; [|unfold sized; auto]. unfold sized; cbn. repeat split; auto. cbn in Ha.
          destruct (nonempty (linearized c)) eqn:E.
          * destruct ex; [|exact Ha]. destruct (linearized c); cbn in *; [discriminate|lia].
          * exact C1.
      - eexists _, _. split; [reflexivity|]. split; [reflexivity|]. cbn in Ha. destruct Ha as (_ & A2 & A3 & A4). cbn in *.
        rewrite !map_length in *. split; unfold sized; cbn; repeat split; auto.
      - eexists _, _. split; [reflexivity|]. split; [reflexivity|]. unfold sized; auto.
      - destruct (C27_velocity_vmult_restores (MkMatrix c p)) as [[_ R] _]. rewrite R.
        + eexists _, _. split; [reflexivity|]. split; [reflexivity|]. unfold sized; auto.
        + cbn. intros E. apply length_zero_nil. rewrite C1, <- P1, E. reflexivity.
      - destruct (C27_pressure_poisson_vmult_restores (MkMatrix c p)) as [[_ R] _]. rewrite R.
        + eexists _, _. split; [reflexivity|]. split; [reflexivity|]. unfold sized; auto.
        + cbn. intros E F. apply E. apply length_zero_nil. rewrite P2, <- C2, F. reflexivity.
      - destruct (C27_pressure_mass_vmult_restores (MkMatrix c p)) as [[_ R] _]. rewrite R.
        + eexists _, _. split; [reflexivity|]. split; [reflexivity|]. unfold sized; auto.
        + cbn. intros E. apply length_zero_nil. rewrite C3, <- P3, E. reflexivity.
      - exists c, c. unfold compute, fix_linearization_point. cbn [cur pre]. split; [|split; [reflexivity|unfold sized; auto]].
        destruct diag; [|reflexivity]. destruct (C27_pressure_mass_vmult_restores (MkMatrix c c)) as [[_ R] _]. apply R. auto. }
    destruct E as (c' & p' & E1 & E2 & S1 & S2). unfold run. cbn [fold_left]. rewrite E1. unfold pure_run. cbn [fold_left]. rewrite E2.
    apply IH; assumption. }
  intros m'. unfold m', run. cbn [fold_left act]. 
  assert (compute true d0 m = MkMatrix (cur m) (cur m)) as ->.
  { unfold compute, fix_linearization_point. destruct d0; [|reflexivity].
    destruct (C27_pressure_mass_vmult_restores (MkMatrix (cur m) (cur m))) as [[_ R] _]. apply R. auto. }
  apply Inv; assumption.
Qed.
Print Assumptions C27_amg_histories.
Print Assumptions C27_initialize.

(** consequence: vmult stays inside its fields after every such history *)
Corollary C27_amg_vmult_is_safe :
  forall {A} (n : nat) (explicit variable : bool) (m : matrix A) (d0 : bool) (l : list (action A)),
    sized n explicit variable (cur m) -> Forall (well_sized n explicit variable) l ->
    accesses_ok explicit n (cur (run true (Compute d0 :: l) m)) = true.
Proof.
  intros A n ex va m d0 l Hm Hl. destruct (C27_amg_histories n ex va m d0 l Hm Hl) as (_ & (S1 & S2 & S3 & S4) & _).
  unfold accesses_ok. destruct ex; cbn [orb]; rewrite ?S1, ?Nat.eqb_refl; cbn [andb].
  all: destruct va; rewrite ?S2, ?S3, ?S4, ?Nat.eqb_refl; [apply orb_true_r|]; apply length_zero_nil in S2; rewrite S2; reflexivity.
Qed.
Print Assumptions C27_amg_vmult_is_safe.

(** with an ILU velocity preconditioner the fields are lost. (a) variable viscosity and a diagonal pressure mass matrix:
    already compute() leaves an empty viscosity field behind, and the next vmult reads beyond it *)
Definition fresh (variable explicit : bool) : matrix nat := initialize 2 variable explicit 7%nat 1%nat 5%nat 0%nat (MkMatrix no_fields no_fields).
Theorem C27_refuted_after_compute :
  let m := fresh true false in let m' := run false [Compute true] m in
  accesses_ok false 2 (cur m) = true /\ viscosities (cur m) = [5; 5]%nat /\ viscosities (cur m') = [] /\ accesses_ok false 2 (cur m') = false.
Proof. repeat split; reflexivity. Qed.
(** (b) velocity_vmult (inner solves, projection solver) removes the linearization point and the variable densities *)
Theorem C27_refuted_after_velocity_vmult :
  let m := fresh true false in let m' := run false [Compute false; Call VelocityVmult] m in
  accesses_ok false 2 (cur m) = true /\ cur m' = no_fields /\ accesses_ok false 2 (cur m') = false.
Proof. repeat split; reflexivity. Qed.
(** what remains true there: constant coefficients and no velocity_vmult *)
Theorem C27_ilu_histories_partial :
  forall {A} (m : matrix A) (l : list (action A)),
    pre m = no_fields -> densities (cur m) = [] -> viscosities (cur m) = [] -> dampings (cur m) = [] ->
    Forall (fun a => match a with Call VelocityVmult | Call (SetCoefficients _ _ _) | Call (Residual _) => False | _ => True end) l ->
    run false l m = m.
Proof.
  intros A m l Hp Hd Hv Hk Hl. induction Hl as [|a l Ha Hl IH]; [reflexivity|]. unfold run in *. cbn [fold_left].
  assert (act false a m = m) as ->; [|exact IH].
  destruct a as [[| | | | |]|diag]; try contradiction; cbn [act step].
  - reflexivity.
  - apply C27_pressure_poisson_vmult_restores. rewrite Hp; cbn; congruence.
  - apply C27_pressure_mass_vmult_restores. auto.
  - unfold compute. destruct diag; [|reflexivity]. apply C27_pressure_mass_vmult_restores. auto.
Qed.
Print Assumptions C27_ilu_histories_partial.
Example C27_nonvacuous :
  sized 2 false true (cur (fresh true false)) /\
  Forall (well_sized 2 false true) [Call (Residual [1; 2]%nat); Call VelocityVmult; Compute true; Call (SetCoefficients [1;2] [3;4] [5;6])%nat; Call MassVmult; Call PoissonVmult].
Proof. split; [unfold sized; cbn; auto|]. repeat constructor. Qed.

Open Scope R_scope.
(** ** C28: diagonal preconditioner *)
(** [max_abs l m]: m is the largest absolute value of the entries (0 if there is none) *)
Definition max_abs (l : list R) (m : R) : Prop :=
  (forall x, In x l -> Rabs x <= m) /\ (m = 0 \/ exists x, In x l /\ Rabs x = m).
Lemma linfty_max l : max_abs l (linfty l).
Proof.
  induction l as [|a l [H1 H2]]; [split; [intros x []|left; reflexivity]|]. cbn [linfty fold_right]. fold (linfty l). split.
  - intros x [<-|Hx]; [apply Rmax_l|]. eapply Rle_trans; [apply H1; assumption|apply Rmax_r].
  - unfold Rmax. destruct (Rle_dec (Rabs a) (linfty l)).
    + destruct H2 as [H2|(x & Hx & E)]; [left; exact H2|right; exists x; split; [right|]; assumption].
    + right. exists a. split; [left|]; reflexivity.
Qed.
Lemma global_linfty_max procs : max_abs (concat procs) (global_linfty procs).
Proof.
  induction procs as [|l p [H1 H2]]; [split; [intros x []|left; reflexivity]|]. cbn [global_linfty fold_right concat]. fold (global_linfty p).
  destruct (linfty_max l) as [L1 L2]. split.
  - intros x Hx. apply in_app_or in Hx as [Hx|Hx].
    + eapply Rle_trans; [apply L1; assumption|apply Rmax_l].
    + eapply Rle_trans; [apply H1; assumption|apply Rmax_r].
  - unfold Rmax. destruct (Rle_dec (linfty l) (global_linfty p)).
    + destruct H2 as [H2|(x & Hx & E)]; [left; exact H2|right; exists x; split; [apply in_or_app; right|]; assumption].
    + destruct L2 as [L2|(x & Hx & E)]; [left; exact L2|right; exists x; split; [apply in_or_app; left|]; assumption].
Qed.
Lemma max_abs_unique l m m' : max_abs l m -> max_abs l m' -> 0 <= m -> 0 <= m' -> m = m'.
Proof.
  intros [A B] [A' B'] P P'. apply Rle_antisym.
  - destruct B as [->|(x & Hx & <-)]; [lra|auto].
  - destruct B' as [->|(x & Hx & <-)]; [lra|auto].
Qed.
Lemma max_abs_nonneg l m : max_abs l m -> 0 <= m.
Proof. intros [_ [->|(x & _ & <-)]]; [lra|apply Rabs_pos]. Qed.

(** what every entry has to do: divide by the diagonal entry if it is not negligible, else nothing *)
Definition entry_spec (m d x y : R) : Prop :=
  (Rabs d > m / 10000000000 -> d <> 0 /\ y * d = x) /\ (Rabs d <= m / 10000000000 -> y = x).
Lemma invert_entry_spec m d x : 0 <= m -> entry_spec m d x (x * invert_entry m d).
Proof.
  intros Hm. unfold invert_entry, entry_spec. destruct (Rlt_dec _ _) as [H|H]; split; intros H'; try lra.
  assert (d <> 0). { intros ->. rewrite Rabs_R0 in H. lra. }
  split; [assumption|field; assumption].
Qed.

Lemma set_nth_length l i x : length (set_nth l i x) = length l.
Proof. revert i; induction l; intros [|i]; cbn; auto. Qed.
Lemma nth_set_nth l i j x : (i < length l)%nat -> nth j (set_nth l i x) 0 = if Nat.eqb j i then x else nth j l 0.
Proof.
  revert i j; induction l as [|a l IH]; intros i j Hi; [cbn in Hi; lia|]. destruct i as [|i], j as [|j]; cbn; try reflexivity.
  apply IH. cbn in Hi. lia.
Qed.
Lemma vmult_loop_nth inv n : forall i dst src j, (i + n <= length dst)%nat ->
  nth j (vmult_loop inv i n dst src) 0 = if (i <=? j)%nat && (j <? i + n)%nat then nth j src 0 * nth j inv 0 else nth j dst 0.
Proof.
  induction n as [|n IH]; intros i dst src j H; cbn [vmult_loop].
  - destruct (Nat.leb_spec i j), (Nat.ltb_spec j (i + 0)); try lia; reflexivity.
  - rewrite IH by (rewrite set_nth_length; lia). rewrite nth_set_nth by lia.
    destruct (Nat.leb_spec (S i) j), (Nat.ltb_spec j (S i + n)), (Nat.leb_spec i j), (Nat.ltb_spec j (i + S n)), (Nat.eqb_spec j i); cbn; try lia; subst; auto.
Qed.
Lemma vmult_loop_inplace_nth inv n : forall i x j, (i + n <= length x)%nat ->
  nth j (vmult_loop_inplace inv i n x) 0 = if (i <=? j)%nat && (j <? i + n)%nat then nth j x 0 * nth j inv 0 else nth j x 0.
Proof.
  induction n as [|n IH]; intros i x j H; cbn [vmult_loop_inplace].
  - destruct (Nat.leb_spec i j), (Nat.ltb_spec j (i + 0)); try lia; reflexivity.
  - rewrite IH by (rewrite set_nth_length; lia). rewrite nth_set_nth by lia.
    destruct (Nat.leb_spec (S i) j), (Nat.ltb_spec j (S i + n)), (Nat.leb_spec i j), (Nat.ltb_spec j (i + S n)), (Nat.eqb_spec j i); cbn; try lia; subst; auto.
Qed.
Lemma vmult_loop_length inv n : forall i dst src, length (vmult_loop inv i n dst src) = length dst.
Proof. induction n; intros; cbn; [auto|]. rewrite IHn. apply set_nth_length. Qed.

Lemma reinit_vector_nth procs p : nth p (reinit_vector procs) [] = map (invert_entry (global_linfty procs)) (nth p procs []).
Proof. unfold reinit_vector. change (@nil R) with (map (invert_entry (global_linfty procs)) []) at 1. apply map_nth. Qed.

(** Vector version: every process, every entry, dst of any previous content, and dst = src *)
Theorem C28_vector :
  forall (procs : list (list R)) (m : R), max_abs (concat procs) m ->
  forall (p i : nat) (dst src : list R), (p < length procs)%nat ->
    let diag := nth p procs [] in
    length src = length diag -> length dst = length diag -> (i < length diag)%nat ->
    let inv := nth p (reinit_vector procs) [] in
    length (vmult_vector inv dst src) = length diag /\
    entry_spec m (nth i diag 0) (nth i src 0) (nth i (vmult_vector inv dst src) 0) /\
    nth i (vmult_vector_inplace inv src) 0 = nth i (vmult_vector inv dst src) 0.
Proof.
  intros procs m Hm p i dst src Hp diag Hs Hd Hi inv. pose proof (max_abs_nonneg _ _ Hm) as Hm0.
  assert (m = global_linfty procs) as E.
  { apply (max_abs_unique (concat procs)); auto; [apply global_linfty_max|apply (max_abs_nonneg (concat procs)); apply global_linfty_max]. }
  assert (Hlen : length inv = length diag) by (unfold inv; rewrite reinit_vector_nth, map_length; reflexivity).
  unfold vmult_vector, vmult_vector_inplace. rewrite vmult_loop_length. split; [assumption|].
  rewrite vmult_loop_nth, vmult_loop_inplace_nth by lia.
  destruct (Nat.leb_spec 0 i); [|lia]. destruct (Nat.ltb_spec i (0 + length inv)); [|lia]. cbn [andb]. split; [|reflexivity].
  unfold inv. rewrite reinit_vector_nth. fold diag.
  rewrite (nth_indep (map _ _) 0 (invert_entry (global_linfty procs) 0)) by (rewrite map_length; assumption). rewrite map_nth, <- E. apply invert_entry_spec. assumption.
Qed.
Print Assumptions C28_vector.

(** block version with a block diagonal: the norm is taken over all blocks and processes; any number of blocks *)
Theorem C28_block :
  forall (procs : list (list (list R))) (m : R), max_abs (concat (map (fun b => concat b) procs)) m ->
  forall (p b i : nat) (inv : list R) (dst src : list (list R)), (p < length procs)%nat ->
    let diag := nth p procs [] in
    (b < length diag)%nat -> length src = length diag -> length (nth b src []) = length (nth b diag []) -> (i < length (nth b diag []))%nat ->
    entry_spec m (nth i (nth b diag []) 0) (nth i (nth b src []) 0)
      (nth i (nth b (vmult_block (nth p (reinit_block procs) []) inv dst src) []) 0).
Proof.
  intros procs m Hm p b i inv dst src Hp diag Hb Hs Hl Hi. pose proof (max_abs_nonneg _ _ Hm) as Hm0.
  set (all := map (fun b => concat b) procs) in *.
  assert (m = global_linfty all) as E.
  { apply (max_abs_unique (concat all)); auto; [apply global_linfty_max|apply (max_abs_nonneg (concat all)); apply global_linfty_max]. }
  unfold reinit_block. fold all. rewrite <- E.
  replace (nth p (map (map (map (invert_entry m))) procs) []) with (map (map (invert_entry m)) diag)
    by (symmetry; change (@nil (list R)) with (map (map (invert_entry m)) []) at 1; apply map_nth).
  unfold vmult_block. destruct (nonempty (map (map (invert_entry m)) diag)) eqn:N.
  2:{ apply nonempty_false in N. destruct diag; [cbn in Hb; lia|discriminate]. }
  set (f := fun p0 : list R * list R => scale (fst p0) (snd p0)).
  rewrite (nth_indep (map f _) [] (f ([], map (invert_entry m) []))) by (rewrite map_length, combine_length, map_length; lia).
  rewrite (map_nth f). rewrite combine_nth by (rewrite map_length; lia).
  unfold f; cbn [fst snd]. rewrite map_nth.
  unfold scale. set (g := fun p0 : R * R => fst p0 * snd p0).
  rewrite (nth_indep (map g _) 0 (g (0, invert_entry m 0))) by (rewrite map_length, combine_length, map_length; lia).
  rewrite (map_nth g), combine_nth by (rewrite map_length; assumption). unfold g; cbn [fst snd]. rewrite map_nth.
  apply invert_entry_spec; assumption.
Qed.
Print Assumptions C28_block.

(** block version with one vector: every block is treated like a vector *)
Theorem C28_vector_on_blocks :
  forall (inv : list R) (dst src : list (list R)) (b : nat), length dst = length src -> (b < length src)%nat ->
    nth b (vmult_block [] inv dst src) [] = vmult_vector inv (nth b dst []) (nth b src []).
Proof.
  intros inv dst src b Hl Hb. unfold vmult_block. cbn [nonempty]. set (f := fun p => vmult_vector inv (fst p) (snd p)).
  rewrite (nth_indep (map f _) [] (f ([], []))) by (rewrite map_length, combine_length; lia).
  rewrite (map_nth f), combine_nth by assumption. reflexivity.
Qed.
Print Assumptions C28_vector_on_blocks.
Example C28_nonvacuous : max_abs (concat [[2; 0]; [-4]]) 4 /\ Rabs 2 > 4 / 10000000000 /\ Rabs 0 <= 4 / 10000000000.
Proof.
  assert (Rabs (-4) = 4) by (rewrite Rabs_left; lra). assert (Rabs 2 = 2) by (apply Rabs_right; lra).
  split; [split|].
  - cbn. intros x [<-|[<-|[<-|[]]]]; rewrite ?Rabs_R0; lra.
  - right. exists (-4). cbn. auto.
  - rewrite Rabs_R0. lra.
Qed.

(** ** C29: pressure Poisson wrapper *)
Lemma upd_same v i x : upd v i x i = x.
Proof. unfold upd. rewrite Nat.eqb_refl. reflexivity. Qed.
Lemma upd_other v i x j : j <> i -> upd v i x j = v j.
Proof. unfold upd. destruct (Nat.eqb_spec j i); congruence. Qed.

Lemma save_spec cs : forall src, NoDup cs ->
  fst (save_and_zero cs src) = map src cs /\
  (forall j, snd (save_and_zero cs src) j = if existsb (Nat.eqb j) cs then 0 else src j).
Proof.
  induction cs as [|c cs IH]; intros src H; [cbn; auto|]. inversion H as [|? ? Hn Hd]; subst. cbn [save_and_zero].
  specialize (IH (upd src c 0) Hd). destruct (save_and_zero cs (upd src c 0)) as [tmp src'] eqn:E. cbn [fst snd] in *. destruct IH as [I1 I2]. split.
  - cbn. f_equal. rewrite I1. apply map_ext_in. intros a Ha. apply upd_other. intros ->; contradiction.
  - intros j. rewrite I2. cbn [existsb]. unfold upd. destruct (Nat.eqb_spec j c); cbn [orb]; [destruct (existsb _ cs)|]; reflexivity.
Qed.
Lemma restore_spec cs : forall tmp diag src dst, NoDup cs -> length tmp = length cs -> length diag = length cs ->
  forall j,
    (existsb (Nat.eqb j) cs = false -> fst (restore cs tmp diag src dst) j = src j /\ snd (restore cs tmp diag src dst) j = dst j) /\
    (forall k, (k < length cs)%nat -> nth k cs 0%nat = j ->
       fst (restore cs tmp diag src dst) j = nth k tmp 0 /\ snd (restore cs tmp diag src dst) j = nth k diag 0 * nth k tmp 0).
Proof.
  induction cs as [|c cs IH]; intros [|t tmp] [|d diag] src dst H Ht Hg j; cbn in Ht, Hg; try discriminate.
  - cbn. split; [auto|intros k Hk; lia].
  - inversion H as [|? ? Hn Hd]; subst. cbn [restore]. specialize (IH tmp diag (upd src c t) (upd dst c (d * t)) Hd ltac:(lia) ltac:(lia) j). destruct IH as [I1 I2].
    assert (N : forall j, existsb (Nat.eqb j) cs = false <-> ~ In j cs).
    { intros x. rewrite <- not_true_iff_false, existsb_exists. split.
      - intros A B. apply A. exists x. rewrite Nat.eqb_refl. auto.
      - intros A (y & Hy & E). apply Nat.eqb_eq in E. subst. contradiction. }
    split.
    + cbn [existsb]. intros E. apply orb_false_iff in E as [E1 E2]. destruct (I1 E2) as [A B]. rewrite A, B. apply Nat.eqb_neq in E1. rewrite !upd_other by auto. auto.
    + intros [|k] Hk E; cbn in E.
      * subst j. destruct I1 as [A B]; [apply N; assumption|]. rewrite A, B, !upd_same. cbn. auto.
      * cbn. apply I2; [cbn in Hk; lia|assumption].
Qed.

(** For every operator, source vector and duplicate-free index set, the caller's source is unchanged, the operator
    sees a source that is zero on the set, rows of the set get diagonal value times source, all others the operator *)
Theorem C29_poisson_wrapper :
  forall (trilinos : bool) (sparse op : vect -> vect) (cs : list nat) (diag : list R) (src : vect),
    NoDup cs -> length diag = length cs ->
    let r := poisson_vmult trilinos sparse op cs diag src in
    (forall j, fst r j = src j) /\
    (trilinos = true -> forall j, snd r j = sparse src j) /\
    (trilinos = false ->
       (forall j, ~ In j cs -> snd r j = op (fun i => if in_dec Nat.eq_dec i cs then 0 else src i) j) /\
       (forall k, (k < length cs)%nat -> snd r (nth k cs 0%nat) = nth k diag 0 * src (nth k cs 0%nat))).
Proof.
  intros tri sparse op cs diag src Hd Hl r. unfold r, poisson_vmult. destruct tri; [split; [auto|split; [auto|discriminate]]|].
  destruct (save_and_zero cs src) as [tmp src1] eqn:E. destruct (save_spec cs src Hd) as [S1 S2]. rewrite E in S1, S2. cbn [fst snd] in S1, S2.
  assert (Hs : src1 = fun i => if in_dec Nat.eq_dec i cs then 0 else src i).
  { apply functional_extensionality. intros i. rewrite S2. destruct (in_dec Nat.eq_dec i cs) as [Hi|Hi].
    - assert (existsb (Nat.eqb i) cs = true) as ->; [apply existsb_exists; exists i; rewrite Nat.eqb_refl; auto|reflexivity].
    - assert (existsb (Nat.eqb i) cs = false) as ->; [|reflexivity]. apply not_true_iff_false. intros X. apply existsb_exists in X as (y & Hy & X). apply Nat.eqb_eq in X. subst; contradiction. }
  assert (Ht : length tmp = length cs) by (rewrite S1, map_length; reflexivity).
  pose proof (restore_spec cs tmp diag src1 (op src1) Hd Ht Hl) as R.
  assert (NI : forall j, ~ In j cs -> existsb (Nat.eqb j) cs = false).
  { intros j Hj. apply not_true_iff_false. intros X. apply existsb_exists in X as (y & Hy & X). apply Nat.eqb_eq in X. subst; contradiction. }
  assert (TN : forall k, (k < length cs)%nat -> nth k tmp 0 = src (nth k cs 0%nat)).
  { intros k Hk. rewrite S1. rewrite (nth_indep _ 0 (src 0%nat)) by (rewrite map_length; assumption). apply map_nth. }
  split; [|split; [discriminate|intros _; split]].
  - intros j. destruct (in_dec Nat.eq_dec j cs) as [Hj|Hj].
    + destruct (In_nth cs j 0%nat Hj) as (k & Hk & Ek). destruct (R j) as [_ R2]. destruct (R2 k Hk Ek) as [-> _]. rewrite TN by assumption. rewrite Ek. reflexivity.
    + destruct (R j) as [R1 _]. destruct (R1 (NI j Hj)) as [-> _]. rewrite Hs. destruct (in_dec Nat.eq_dec j cs); [contradiction|reflexivity].
  - intros j Hj. destruct (R j) as [R1 _]. destruct (R1 (NI j Hj)) as [_ ->]. rewrite Hs. reflexivity.
  - intros k Hk. destruct (R (nth k cs 0%nat)) as [_ R2]. destruct (R2 k Hk eq_refl) as [_ ->]. rewrite TN by assumption. reflexivity.
Qed.
Print Assumptions C29_poisson_wrapper.

(** the index list the code uses is sorted and duplicate free, and is the documented set *)
Theorem C29_index_list :
  forall n owned schur pressure,
    let cs := schur_only n owned schur pressure in
    NoDup cs /\ StronglySorted lt cs /\
    (forall i, In i cs <-> (i < n)%nat /\ schur (owned i) = true /\ pressure (owned i) = false).
Proof.
  intros n owned schur pressure cs. unfold cs, schur_only.
  assert (S : forall k m f, StronglySorted lt (filter f (seq k m))).
  { intros k m f. revert k. induction m as [|m IH]; intros k; cbn; [constructor|].
    destruct (f k); [|apply IH]. constructor; [apply IH|]. apply Forall_forall. intros x Hx. apply filter_In in Hx as [Hx _]. apply in_seq in Hx. lia. }
  split; [apply NoDup_filter, seq_NoDup|]. split; [apply S|].
  intros i. rewrite filter_In, in_seq, andb_true_iff, negb_true_iff. split; intros H; intuition lia.
Qed.
Print Assumptions C29_index_list.
(** duplicate indices would destroy the source: the hypothesis is needed *)
Example C29_duplicates_break : fst (poisson_vmult false (fun v => v) (fun v => v) [0; 0]%nat [1; 1] (fun _ => 5)) 0%nat = 0.
Proof. reflexivity. Qed.
Example C29_nonvacuous : NoDup (schur_only 4 (fun i => i) (fun i => Nat.even i) (fun i => Nat.eqb i 0)) /\ schur_only 4 (fun i => i) (fun i => Nat.even i) (fun i => Nat.eqb i 0) = [2%nat].
Proof. split; [apply C29_index_list|reflexivity]. Qed.

(** ** C56: the pinned pressure dof *)
Open Scope Z_scope.
(** keys of each process sorted, as in std::map *)
Definition keys_ok (n_dofs : Z) (keys : list Z) : Prop := StronglySorted Z.lt keys /\ Forall (fun k => 0 <= k < n_dofs) keys.

Lemma min_local_spec con keys n : keys_ok n keys -> n <= 2147483647 ->
  (min_local_index con keys = int_min /\ forall k, In k keys -> con k = true) \/
  (exists k0, In k0 keys /\ (forall k, In k keys -> k0 <= k) /\ min_local_index con keys = - k0 /\ int_min < - k0 /\ exists k, In k keys /\ con k = false).
Proof.
  intros [S F] Hn. unfold min_local_index. destruct (existsb _ keys) eqn:E.
  - right. destruct keys as [|k0 keys]; [discriminate|]. exists k0. cbn [hd]. inversion S as [|? ? _ H2]; subst. inversion F; subst.
    split; [left; reflexivity|]. split; [|split; [reflexivity|split; [unfold int_min; lia|]]].
    + intros k [<-|Hk]; [lia|]. rewrite Forall_forall in H2. specialize (H2 k Hk). lia.
    + apply existsb_exists in E as (k & Hk & E). exists k. split; [exact Hk|]. destruct (con k); [discriminate|reflexivity].
  - left. split; [reflexivity|]. intros k Hk. destruct (con k) eqn:C; [reflexivity|].
    assert (existsb (fun k => negb (con k)) keys = true); [apply existsb_exists; exists k; rewrite C; auto|congruence].
Qed.

(** If some process has an unconstrained candidate, the dof chosen (the same on all processes: it is a function of the
    reduction) is the smallest candidate among the processes that have an unconstrained one, and is accepted; if no
    process has one, the call is rejected. *)
Theorem C56_pinned_dof_partial :
  forall (con : Z -> bool) (procs : list (list Z)) (n_dofs : Z),
    0 < n_dofs <= 2147483647 -> Forall (keys_ok n_dofs) procs ->
    let unconstrained keys := exists k, In k keys /\ con k = false in
    ((exists keys, In keys procs /\ unconstrained keys) ->
       pin_accepted con procs n_dofs = true /\
       (exists keys, In keys procs /\ unconstrained keys /\ In (pinned_dof con procs) keys) /\
       (forall keys k, In keys procs -> unconstrained keys -> In k keys -> pinned_dof con procs <= k)) /\
    ((forall keys, In keys procs -> ~ unconstrained keys) -> pin_accepted con procs n_dofs = false).
Proof.
  intros con procs n Hn HF unc.
  assert (G : (fold_right Z.max int_min (map (min_local_index con) procs) = int_min /\ forall keys, In keys procs -> ~ unc keys) \/
     (exists k0, fold_right Z.max int_min (map (min_local_index con) procs) = - k0 /\ 0 <= k0 < n /\
        (exists keys, In keys procs /\ unc keys /\ In k0 keys) /\ (forall keys k, In keys procs -> unc keys -> In k keys -> k0 <= k))).
  { induction HF as [|keys procs Hk HF IH]; [left; split; [reflexivity|intros k []]|]. cbn [map fold_right].
    destruct (min_local_spec con keys n Hk ltac:(lia)) as [[E1 E2]|(k0 & A & B & C & D & E)].
    - rewrite E1. assert (NU : ~ unc keys) by (intros (k & Ik & Ck); rewrite E2 in Ck; [discriminate|assumption]).
      destruct IH as [[I1 I2]|(k1 & I1 & I2 & (ks & I3 & I4 & I5) & I6)].
      + left. rewrite I1. split; [reflexivity|]. intros ks [<-|H]; auto.
      + right. exists k1. rewrite I1. split; [unfold int_min; lia|]. split; [assumption|]. split; [exists ks; split; [right|]; auto|].
        intros ks' k [<-|H] U; [contradiction|apply I6; assumption].
    - rewrite C. assert (U : unc keys) by exact E. assert (R0 : 0 <= k0 < n) by (destruct Hk as [_ F]; rewrite Forall_forall in F; auto).
      destruct IH as [[I1 I2]|(k1 & I1 & I2 & (ks & I3 & I4 & I5) & I6)].
      + right. exists k0. rewrite I1. split; [lia|]. split; [assumption|]. split; [exists keys; split; [left|]; auto|].
        intros ks' k [<-|H] U' Ik; [auto|]. exfalso. eapply I2; eauto.
      + right. rewrite I1. destruct (Z_le_gt_dec k0 k1).
        * exists k0. split; [lia|]. split; [assumption|]. split; [exists keys; split; [left|]; auto|].
          intros ks' k [<-|H] U' Ik; [auto|]. specialize (I6 _ _ H U' Ik). lia.
        * exists k1. split; [lia|]. split; [assumption|]. split; [exists ks; split; [right|]; auto|].
          intros ks' k [<-|H] U' Ik; [specialize (B _ Ik); lia|]. eauto. }
  unfold pin_accepted, pinned_dof. destruct G as [[G1 G2]|(k0 & G1 & G2 & G3 & G4)]; rewrite G1.
  - split; [intros (ks & H & U); exfalso; eapply G2; eauto|]. intros _. unfold int_min. apply Z.ltb_ge. cbn. lia.
  - replace (- - k0) with k0 by lia. rewrite Z.mod_small by lia. split.
    + intros _. split; [apply Z.ltb_lt; lia|]. split; assumption.
    + intros H. exfalso. destruct G3 as (ks & A & B & C). eapply H; eauto.
Qed.
Print Assumptions C56_pinned_dof_partial.
(** the documented choice (an unconstrained dof) is missed: the code takes the first boundary dof of the process *)
Theorem C56_pinned_dof_is_unconstrained_refuted :
  exists (con : Z -> bool) (procs : list (list Z)) (n : Z),
    0 < n <= 2147483647 /\ Forall (keys_ok n) procs /\ pin_accepted con procs n = true /\ con (pinned_dof con procs) = true.
Proof.
  exists (fun k => k =? 3), [[3; 5]], 10. split; [lia|]. split; [|split; reflexivity].
  constructor; [|constructor]. split; repeat constructor; lia.
Qed.
Example C56_nonvacuous : Forall (keys_ok 10) [[3; 5]; []; [1]] /\ exists keys, In keys [[3; 5]; []; [1]] /\ exists k, In k keys /\ (fun k => k =? 3) k = false.
Proof.
  split; [repeat constructor; lia|]. exists [3; 5]. split; [left; reflexivity|]. exists 5. split; [right; left|]; reflexivity.
Qed.
