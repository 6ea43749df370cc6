(** * C117: The pressure matrix is built with the densities of the fluid of the current time step on the faces *)
From Coq Require Import Reals List Arith Bool Lia Lra.
From Verif Require Import SumR Model_Bubble Model_LevelSet Properties_LevelSet2 Model_FaceDensities.
Import ListNotations.
Open Scope R_scope.

(** ** Specification *)
(** the mesh after a list of calls: the last one that was created *)
Definition mesh_after (m : mesh) (c : call) : mesh :=
  match c with Setup m refined _ => last refined m | Refine (Some m') => m' | _ => m end.
Definition current_mesh (calls : list call) : mesh := fold_left mesh_after calls (MkMesh [] 0).
(** a processor knows its own cells; level and index identify them *)
Definition sound (m : mesh) : Prop :=
  (forall c, In c (ms_cells m) -> mc_owned c = true -> mc_artificial c = false /\ (mc_level c < ms_levels m)%nat) /\
  NoDup (map (fun c => (mc_level c, mc_index c)) (filter mc_owned (ms_cells m))).
(** the finite element field h in the center of a face *)
Definition at_center (h : nat -> R) (c : mcell) (f : nat) : R := sumn (mc_n c) (fun j => h (mc_dof c j) * mc_center c f j).
(** the density of the fluid there; the projection scheme takes the lighter fluid everywhere *)
Definition fluid_density (P : fparams) (h : nat -> R) (c : mcell) (f : nat) : R :=
  if fd_projection P then Rmin (fd_density P) (fd_density P + fd_diff P) else fd_density P + fd_diff P * at_center h c f.
(** the indicator field of a time step *)
Definition latest (h : nat -> R) (smoothed : option (nat -> R)) : nat -> R := match smoothed with Some h' => h' | None => h end.
Definition level_set (k : kind) : Prop := k = LevelSet \/ k = LevelSetMatrix.

(** ** Tables *)
Lemma nth_put_same {A} (l : list A) i v : (i < length l)%nat -> nth_error (put l i v) i = Some v.
Proof. revert i. induction l as [|x l IH]; intros [|i] H; cbn in *; try lia; [reflexivity|]. apply IH. lia. Qed.
Lemma nth_put_other {A} (l : list A) i j v : i <> j -> nth_error (put l i v) j = nth_error l j.
Proof. revert i j. induction l as [|x l IH]; intros [|i] [|j] H; cbn in *; try reflexivity; [lia|]. apply IH. lia. Qed.
Lemma put_length {A} (l : list A) i v : length (put l i v) = length l.
Proof. revert i. induction l as [|x l IH]; intros [|i]; cbn; try reflexivity. now rewrite IH. Qed.
Lemma some_lt {A} (l : list A) i v : nth_error l i = Some v -> (i < length l)%nat.
Proof. intros H. apply nth_error_Some. congruence. Qed.
Lemma read_write_same T l i f v : read T l i f <> None -> read (write T l i f v) l i f = Some v.
Proof.
  unfold read, write. destruct (nth_error T l) as [rows|] eqn:E1; [|congruence]. destruct (nth_error rows i) as [row|] eqn:E2; [|congruence].
  intros H. rewrite (nth_put_same T l _ (some_lt _ _ _ E1)), (nth_put_same rows i _ (some_lt _ _ _ E2)). apply nth_put_same. now apply nth_error_Some.
Qed.
Lemma read_write_other T l i f v l' i' f' : (l, i, f) <> (l', i', f') -> read (write T l i f v) l' i' f' = read T l' i' f'.
Proof.
  intros H. unfold read, write. destruct (nth_error T l) as [rows|] eqn:E1; [|reflexivity]. destruct (nth_error rows i) as [row|] eqn:E2; [|reflexivity].
  destruct (Nat.eq_dec l l') as [<-|N].
  - rewrite (nth_put_same T l _ (some_lt _ _ _ E1)), E1. destruct (Nat.eq_dec i i') as [<-|N].
    + rewrite (nth_put_same rows i _ (some_lt _ _ _ E2)), E2. apply nth_put_other. intros ->. now apply H.
    + now rewrite nth_put_other.
  - now rewrite nth_put_other.
Qed.
Lemma read_write_none T l i f v l' i' f' : read T l' i' f' <> None -> read (write T l i f v) l' i' f' <> None.
Proof.
  intros H. destruct (Nat.eq_dec l l') as [<-|A]; [destruct (Nat.eq_dec i i') as [<-|B]; [destruct (Nat.eq_dec f f') as [<-|C]|]|].
  - rewrite read_write_same by exact H. discriminate.
  - rewrite read_write_other; [exact H|congruence].
  - rewrite read_write_other; [exact H|congruence].
  - rewrite read_write_other; [exact H|congruence].
Qed.

(** one cell *)
Lemma writes_spec (l i : nat) (g : nat -> R) n T0 : let T := fold_left (fun T f => write T l i f (g f)) (seq 0 n) T0 in
  (forall l' i' f', (l, i) <> (l', i') -> read T l' i' f' = read T0 l' i' f') /\
  (forall l' i' f', read T0 l' i' f' <> None -> read T l' i' f' <> None) /\
  (forall f, (f < n)%nat -> read T0 l i f <> None -> read T l i f = Some (g f)).
Proof.
  induction n as [|n IH]; intros T; subst T.
  - cbn. repeat split; auto. intros; lia.
  - rewrite seq_S, fold_left_app. cbn [fold_left Nat.add]. destruct IH as (A & B & C). repeat split.
    + intros l' i' f' H. rewrite read_write_other by congruence. now apply A.
    + intros l' i' f' H. apply read_write_none. now apply B.
    + intros f H H0. destruct (Nat.eq_dec f n) as [->|N].
      * apply read_write_same. now apply B.
      * rewrite read_write_other by congruence. apply C; [lia|exact H0].
Qed.
(** all cells of a processor *)
Lemma set_cells_spec P h cells T0 : NoDup (map (fun c => (mc_level c, mc_index c)) cells) ->
  let T := fold_left (set_cell P h) cells T0 in
  (forall l i f, read T0 l i f <> None -> read T l i f <> None) /\
  (forall c f, ~ In (mc_level c, mc_index c) (map (fun c => (mc_level c, mc_index c)) cells) -> read T (mc_level c) (mc_index c) f = read T0 (mc_level c) (mc_index c) f) /\
  (forall c f, In c cells -> (f < fd_faces P)%nat -> read T0 (mc_level c) (mc_index c) f <> None ->
     read T (mc_level c) (mc_index c) f = Some (fd_density P + fd_diff P * at_center h c f)).
Proof.
  revert T0. induction cells as [|x cells IH]; intros T0 D; cbn [fold_left map]; cbv zeta.
  - repeat split; auto. intros ? ? [].
  - cbn [map] in D. inversion D as [|k ks D1 D2]; subst. destruct (IH (set_cell P h T0 x) D2) as (A & B & C).
    destruct (writes_spec (mc_level x) (mc_index x) (fun f => face_density (fd_density P) (fd_diff P) (mc_n x) (fun j => h (mc_dof x j)) (mc_center x f)) (fd_faces P) T0) as (W1 & W2 & W3).
    change (fold_left _ (seq 0 (fd_faces P)) T0) with (set_cell P h T0 x) in W1, W2, W3.
    repeat split.
    + intros l i f H. apply A, W2, H.
    + intros c f H. rewrite B by (intros Q; apply H; now right). apply W1. intros Q. apply H. left. exact Q.
    + intros c f [->|I] F H.
      * rewrite B by exact D1. rewrite (W3 f F H). unfold face_density, fe_value, at_center. f_equal. ring.
      * apply C; [exact I|exact F|]. apply W2, H.
Qed.

(** ** The tables fit the mesh *)
Definition fits (P : fparams) (m : mesh) (T : tables) : Prop :=
  fd_augmented P = true -> fd_diff P <> 0 ->
  forall c f, In c (ms_cells m) -> mc_artificial c = false -> (mc_level c < ms_levels m)%nat -> (f < fd_faces P)%nat -> read T (mc_level c) (mc_index c) f <> None.
Lemma max_index_spec cells l c : In c cells -> mc_artificial c = false -> mc_level c = l -> (mc_index c <= max_index cells l)%nat.
Proof.
  unfold max_index. generalize O. revert c. induction cells as [|x cells IH]; intros c s I A L; [destruct I|]. cbn [fold_left]. destruct I as [->|I].
  - rewrite A, L, Nat.eqb_refl. cbn. generalize (Nat.max s (mc_index c)) (Nat.le_max_r s (mc_index c)). clear.
    induction cells as [|x cells IH]; intros s H; cbn [fold_left]; [exact H|]. apply IH. destruct (negb (mc_artificial x) && (mc_level x =? l)%nat); lia.
  - now apply IH.
Qed.
Lemma new_mesh_reads P m s c f : fd_augmented P = true -> fd_diff P <> 0 -> In c (ms_cells m) -> mc_artificial c = false -> (mc_level c < ms_levels m)%nat ->
  (f < fd_faces P)%nat -> read (st_tables (new_mesh P m s)) (mc_level c) (mc_index c) f = Some 0.
Proof.
  intros HA HD I A L F. unfold new_mesh, initialize_matrices. cbn [st_tables]. rewrite HA. destruct (Req_EM_T (fd_diff P) 0) as [Z|_]; [contradiction|]. cbn [andb negb].
  unfold read. rewrite nth_error_map, nth_error_nth' with (d := O) by (now rewrite seq_length). rewrite seq_nth by exact L. cbn [option_map Nat.add].
  pose proof (max_index_spec _ _ c I A eq_refl) as M.
  assert (E : forall A (x : A) n i, (i < n)%nat -> nth_error (repeat x n) i = Some x).
  { intros T x n. induction n as [|n IH]; intros [|i] H; cbn; try lia; [reflexivity|]. apply IH. lia. }
  rewrite E by lia. now apply E.
Qed.
Lemma fits_new P m s : fits P m (st_tables (new_mesh P m s)).
Proof. intros A D c f I H L F. rewrite new_mesh_reads by assumption. discriminate. Qed.
Lemma fold_none P h cells T l i f : read T l i f <> None -> read (fold_left (set_cell P h) cells T) l i f <> None.
Proof.
  revert T. induction cells as [|x cells IH]; intros T H; cbn [fold_left]; [exact H|]. apply IH.
  destruct (writes_spec (mc_level x) (mc_index x) (fun f => face_density (fd_density P) (fd_diff P) (mc_n x) (fun j => h (mc_dof x j)) (mc_center x f)) (fd_faces P) T) as (_ & W2 & _).
  apply W2, H.
Qed.
Lemma fits_force P k h s m : fits P m (st_tables s) -> fits P m (st_tables (compute_force P k h s)).
Proof.
  intros H A D c f I H0 L F. specialize (H A D c f I H0 L F). destruct k; cbn [compute_force st_tables]; try exact H;
    unfold compute_density_on_faces; destruct (_ || _); try exact H; now apply fold_none.
Qed.
Lemma mesh_force P k h s : st_mesh (compute_force P k h s) = st_mesh s.
Proof. now destruct k. Qed.
Lemma setup_mesh P m refined s : fits P (last refined m) (st_tables (fold_left (fun s m => new_mesh P m s) refined (new_mesh P m s))) /\
  st_mesh (fold_left (fun s m => new_mesh P m s) refined (new_mesh P m s)) = last refined m.
Proof.
  revert m s. induction refined as [|x r IH]; intros m s; cbn [fold_left].
  - cbn [last]. split; [apply fits_new|reflexivity].
  - destruct (IH x (new_mesh P m s)) as (A & B). replace (last (x :: r) m) with (last r x); [now split|]. clear.
    revert x. induction r as [|y r IH]; intros x; [reflexivity|]. change (last (x :: y :: r) m) with (last (y :: r) m). rewrite <- IH.
    clear. revert y x. induction r as [|z r IH]; intros y x; [reflexivity|]. change (last (y :: z :: r) x) with (last (z :: r) x).
    change (last (z :: r) y) with (last (z :: r) y). rewrite (IH z x). destruct r; [reflexivity|]. now rewrite (IH z y).
Qed.
Lemma after_app P k calls c : after P k (calls ++ [c]) = fst (perform P k (after P k calls) c).
Proof. unfold after. now rewrite fold_left_app. Qed.
Lemma invariant P k calls : st_mesh (after P k calls) = current_mesh calls /\ fits P (current_mesh calls) (st_tables (after P k calls)).
Proof.
  induction calls as [|c calls IH] using rev_ind.
  - split; [reflexivity|]. intros ? ? ? ? [].
  - rewrite after_app. unfold current_mesh. rewrite fold_left_app. change (fold_left mesh_after calls (MkMesh [] 0)) with (current_mesh calls). cbn [fold_left].
    destruct IH as (M & F). destruct c as [m refined n|h sm n|[m|]]; cbn [perform fst mesh_after].
    + destruct (setup_mesh P m refined (after P k calls)). now split.
    + destruct sm as [h'|]; rewrite ?mesh_force; split; try exact M; repeat apply fits_force; exact F.
    + split; [reflexivity|]. apply fits_new.
    + now split.
Qed.

(** ** C117 *)
(** level set solvers, for every history of set-up, refinements and time steps before the current one: whenever the preconditioner is built,
    the entry of every face of every cell of the processor is inside of the tables and is the density of the fluid of the current time step *)
Theorem C117_current : forall P k before h smoothed n b c f, level_set k -> sound (current_mesh before) -> fd_augmented P = true ->
  In b (builds_of P k before (Advance h smoothed n)) -> In c (ms_cells (current_mesh before)) -> mc_owned c = true -> (f < fd_faces P)%nat ->
  bd_mesh b = current_mesh before /\ bd_density b = fd_density P /\
  bd_lookup b c f = Some (if Req_EM_T (fd_diff P) 0 then fd_density P else fluid_density P (latest h smoothed) c f).
Proof.
  intros P k before h smoothed n b c f K S A I C O F. unfold builds_of in I. cbn [perform snd] in I. apply repeat_spec in I. subst b.
  destruct (invariant P k before) as (M & T). destruct S as (S1 & S2). destruct (S1 c C O) as (NA & L).
  assert (G : forall s g, st_mesh s = current_mesh before -> fits P (current_mesh before) (st_tables s) ->
    bd_mesh (assemble P (fd_density P) (compute_force P k g s)) = current_mesh before /\
    bd_density (assemble P (fd_density P) (compute_force P k g s)) = fd_density P /\
    bd_lookup (assemble P (fd_density P) (compute_force P k g s)) c f = Some (if Req_EM_T (fd_diff P) 0 then fd_density P else fluid_density P g c f)).
  { clear T. intros s g M' T. cbn [assemble bd_mesh bd_density bd_lookup]. rewrite mesh_force. refine (conj M' (conj eq_refl _)).
    unfold get_face_average_density, fluid_density. destruct (Req_EM_T (fd_diff P) 0) as [Z|Z] eqn:EZ; [reflexivity|]. destruct (fd_projection P) eqn:EP; [reflexivity|].
    assert (E : st_tables (compute_force P k g s) = fold_left (set_cell P g) (filter mc_owned (ms_cells (current_mesh before))) (st_tables s)).
    { destruct K as [-> | ->]; cbn [compute_force st_tables]; rewrite M'; unfold compute_density_on_faces; rewrite A, EZ, EP; reflexivity. }
    rewrite E. destruct (set_cells_spec P g (filter mc_owned (ms_cells (current_mesh before))) (st_tables s) S2) as (_ & _ & W).
    apply W; [|exact F|].
    - apply filter_In. now split.
    - now apply T. }
  destruct smoothed as [h'|]; cbn [latest].
  - apply G; [now rewrite mesh_force|]. now apply fits_force.
  - now apply G.
Qed.
Print Assumptions C117_current.

(** during the set-up the density of the faces is not used *)
Theorem C117_setup : forall P k before m refined n b, In b (builds_of P k before (Setup m refined n)) -> bd_density b = 0.
Proof. intros P k before m refined n b I. unfold builds_of in I. cbn [perform snd] in I. apply repeat_spec in I. now subst b. Qed.
Print Assumptions C117_setup.

(** so the factors 1 / (density weight) of the pressure matrix are positive, between those of the two fluids, and the two cells at a face
    take the same factor *)
Theorem C117_factors : forall P k before h smoothed n b c f, level_set k -> sound (current_mesh before) -> fd_augmented P = true ->
  In b (builds_of P k before (Advance h smoothed n)) -> In c (ms_cells (current_mesh before)) -> mc_owned c = true -> (f < fd_faces P)%nat ->
  0 < fd_density P -> 0 < fd_density P + fd_diff P ->
  (forall j, (j < mc_n c)%nat -> 0 <= mc_center c f j) -> sumn (mc_n c) (mc_center c f) = 1 -> (forall j, 0 <= latest h smoothed j <= 1) ->
  exists rho, bd_lookup b c f = Some rho /\ 0 < rho /\ Rmin (fd_density P) (fd_density P + fd_diff P) <= rho <= Rmax (fd_density P) (fd_density P + fd_diff P) /\
  (forall w, 0 < w -> 0 < 1 / (rho * w)) /\
  (forall c' f', In c' (ms_cells (current_mesh before)) -> mc_owned c' = true -> (f' < fd_faces P)%nat ->
     at_center (latest h smoothed) c' f' = at_center (latest h smoothed) c f -> bd_lookup b c' f' = Some rho).
Proof.
  intros P k before h smoothed n b c f K S A I C O F R1 R2 W0 W1 H01.
  destruct (C117_current P k before h smoothed n b c f K S A I C O F) as (_ & _ & L).
  set (rho := if Req_EM_T (fd_diff P) 0 then fd_density P else fluid_density P (latest h smoothed) c f) in L. exists rho.
  assert (B : Rmin (fd_density P) (fd_density P + fd_diff P) <= rho <= Rmax (fd_density P) (fd_density P + fd_diff P)).
  { unfold rho, fluid_density. destruct (Req_EM_T (fd_diff P) 0) as [Z|Z].
    - rewrite Z, Rplus_0_r, Rmin_left, Rmax_left by lra. lra.
    - destruct (fd_projection P).
      + split; [apply Rle_refl|]. apply Rle_trans with (fd_density P); [apply Rmin_l|apply Rmax_l].
      + apply (mixture_between (fd_density P) (fd_diff P) (at_center (latest h smoothed) c f)).
        apply (fe_value_bounds (mc_n c) (fun j => latest h smoothed (mc_dof c j)) (mc_center c f) 0 1); [split; assumption|]. intros j _. apply H01. }
  assert (Q : 0 < rho). { destruct B as (B & _). unfold Rmin in B. destruct (Rle_dec _ _) in B; lra. }
  refine (conj L (conj Q (conj B (conj _ _)))).
  - intros w Hw. apply Rdiv_lt_0_compat; [lra|]. now apply Rmult_lt_0_compat.
  - intros c' f' C' O' F' E. destruct (C117_current P k before h smoothed n b c' f' K S A I C' O' F') as (_ & _ & L'). rewrite L'. unfold rho, fluid_density. now rewrite E.
Qed.
Print Assumptions C117_factors.

(** ** Violation: phase field and sharp interface solvers never set the densities *)
Definition fresh (P : fparams) (m : mesh) (T : tables) : Prop :=
  fd_augmented P = true -> fd_diff P <> 0 ->
  forall c f, In c (ms_cells m) -> mc_artificial c = false -> (mc_level c < ms_levels m)%nat -> (f < fd_faces P)%nat -> read T (mc_level c) (mc_index c) f = Some 0.
Lemma never_set P k calls : ~ level_set k -> st_mesh (after P k calls) = current_mesh calls /\ fresh P (current_mesh calls) (st_tables (after P k calls)).
Proof.
  intros K. assert (NF : forall h s, compute_force P k h s = s). { intros h s. destruct k; try reflexivity; exfalso; apply K; [now left|now right]. }
  induction calls as [|c calls IH] using rev_ind.
  - split; [reflexivity|]. intros ? ? ? ? [].
  - rewrite after_app. unfold current_mesh. rewrite fold_left_app. change (fold_left mesh_after calls (MkMesh [] 0)) with (current_mesh calls). cbn [fold_left].
    destruct IH as (M & F). destruct c as [m refined n|h sm n|[m|]]; cbn [perform fst mesh_after].
    + destruct (setup_mesh P m refined (after P k calls)) as (_ & E). split; [exact E|]. rewrite <- E. clear E F M.
      assert (G : forall r m0 s, exists m1 s1, fold_left (fun s m => new_mesh P m s) r (new_mesh P m0 s) = new_mesh P m1 s1).
      { induction r as [|x r IH]; intros m0 s; [now exists m0, s|]. cbn [fold_left]. apply IH. }
      destruct (G refined m (after P k calls)) as (m1 & s1 & ->). intros A D c f I H L Fa. now apply new_mesh_reads.
    + rewrite !NF. assert (E : (match sm with Some h' => compute_force P k h' (after P k calls) | None => after P k calls end) = after P k calls) by (destruct sm; [apply NF|reflexivity]).
      rewrite E. now split.
    + split; [reflexivity|]. intros A D c f I H L Fa. now apply new_mesh_reads.
    + now split.
Qed.
(** for every history: the density on every face of every own cell is zero in every build, and the factor is a division by zero *)
Theorem C117_violation_never_set : forall P k before h smoothed n b c f, ~ level_set k -> sound (current_mesh before) -> fd_augmented P = true ->
  fd_diff P <> 0 -> fd_projection P = false ->
  In b (builds_of P k before (Advance h smoothed n)) -> In c (ms_cells (current_mesh before)) -> mc_owned c = true -> (f < fd_faces P)%nat ->
  bd_density b = fd_density P /\ bd_lookup b c f = Some 0 /\ (forall w rho, bd_lookup b c f = Some rho -> rho * w = 0).
Proof.
  intros P k before h smoothed n b c f K S A D HP I C O F. unfold builds_of in I. cbn [perform snd] in I. apply repeat_spec in I. subst b.
  assert (NF : forall h s, compute_force P k h s = s). { intros g s. destruct k; try reflexivity; exfalso; apply K; [now left|now right]. }
  assert (E : (match smoothed with Some h' => compute_force P k h' (compute_force P k h (after P k before)) | None => compute_force P k h (after P k before) end) = after P k before) by (destruct smoothed; rewrite !NF; reflexivity).
  rewrite E. destruct (never_set P k before K) as (M & T). destruct S as (S1 & _). destruct (S1 c C O) as (NA & L).
  assert (V : bd_lookup (assemble P (fd_density P) (after P k before)) c f = Some 0).
  { cbn [assemble bd_lookup]. unfold get_face_average_density. rewrite HP. destruct (Req_EM_T (fd_diff P) 0) as [Z|Z]; [contradiction|]. now apply T. }
  refine (conj eq_refl (conj V _)). intros w rho Hr. rewrite V in Hr. injection Hr as <-. ring.
Qed.
Print Assumptions C117_violation_never_set.

(** ** Examples: two cells on a line, one of them refined *)
Definition line_cell (l i : nat) (owned : bool) (d : nat) : mcell :=
  MkMCell l i owned (negb owned) 2 (fun j => d + j)%nat (fun f j => if Nat.eqb f j then 1 else 0).
Definition coarse : mesh := MkMesh [line_cell 0 0 true 0; line_cell 0 1 true 1] 1.
Definition fine : mesh := MkMesh [line_cell 0 0 true 0; line_cell 1 0 true 1; line_cell 1 1 true 2; line_cell 0 7 false 9] 2.
Definition ex_par (projection : bool) : fparams := MkFPar 1 2 true projection 2.
Definition ramp (j : nat) : R := if Nat.eqb j 0 then 0 else if Nat.eqb j 1 then 1 / 2 else 1.
Definition ex_before : list call := [Setup coarse [] 1; Advance (fun _ => 0) None 1; Refine (Some fine)].
Example ex_sound : sound (current_mesh ex_before).
Proof.
  cbn. split.
  - intros c [<-|[<-|[<-|[<-|[]]]]] H; try discriminate; split; try reflexivity; cbn; lia.
  - cbn. repeat constructor; cbn; intuition congruence.
Qed.
Example C117_nonvacuous : exists b, In b (builds_of (ex_par false) LevelSet ex_before (Advance ramp None 1)) /\
  bd_lookup b (line_cell 0 0 true 0) 1 = Some 2 /\ bd_lookup b (line_cell 1 0 true 1) 0 = Some 2 /\ bd_lookup b (line_cell 1 1 true 2) 1 = Some 3.
Proof.
  eexists. split; [left; reflexivity|].
  assert (G : forall c f, In c (ms_cells (current_mesh ex_before)) -> mc_owned c = true -> (f < 2)%nat ->
    forall b, In b (builds_of (ex_par false) LevelSet ex_before (Advance ramp None 1)) -> bd_lookup b c f = Some (1 + 2 * at_center ramp c f)).
  { intros c f I O F b Hb. destruct (C117_current (ex_par false) LevelSet ex_before ramp None 1 b c f (or_introl eq_refl) ex_sound eq_refl Hb I O F) as (_ & _ & E).
    rewrite E. cbn [ex_par fd_diff fd_density]. destruct (Req_EM_T 2 0) as [Z|_]; [lra|]. reflexivity. }
  repeat split; (rewrite G; [f_equal; unfold at_center, ramp; cbn; lra|cbn; tauto|reflexivity|lia|left; reflexivity]).
Qed.
Example C117_phase_field : exists b, In b (builds_of (ex_par false) PhaseField ex_before (Advance ramp None 1)) /\
  0 < bd_density b /\ bd_lookup b (line_cell 0 0 true 0) 1 = Some 0.
Proof.
  eexists. split; [left; reflexivity|].
  destruct (C117_violation_never_set (ex_par false) PhaseField ex_before ramp None 1 _ (line_cell 0 0 true 0) 1 ltac:(intros [H|H]; discriminate) ex_sound eq_refl ltac:(cbn; lra) eq_refl (or_introl eq_refl) (or_introl eq_refl) eq_refl ltac:(cbn; lia)) as (A & B & _).
  split; [rewrite A; cbn; lra|exact B].
Qed.
