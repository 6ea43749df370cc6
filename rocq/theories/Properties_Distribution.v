(** * C112: the adapted mesh does not depend on the distribution of the cells to the processes *)
From Coq Require Import ZArith QArith Reals Bool List Permutation Lia Lra.
From Verif Require Import Num NumQ Model_Refinement Properties_Refinement Model_Distribution.
Import ListNotations.
Open Scope Z_scope.

(** ** Specification *)
(** The finest level of the whole mesh when the simulation was set up. *)
Definition finest (stored : list Z) (l : Z) : Prop := In l stored /\ Forall (fun k => k <= l) stored.
(** What every process saw of the mesh at setup: a cell of the finest level [l]. *)
Definition everybody_saw (l : Z) (seen : list (list Z)) : Prop := Forall (fun s => finest s l) seen.
(** processes with the limits of setup, made of what they saw *)
Definition limits_from {N} (seen : list (list Z)) (m : list (process N)) : Prop :=
  Forall2 (fun s p => p_lower p = level_limit s) seen m.
(** all the cells of the mesh *)
Definition whole {N} (m : list (process N)) : list (cell N) := concat (map p_cells m).
(** two ways of distributing the same mesh *)
Definition same_mesh_distributed {N} (m m' : list (process N)) : Prop := Permutation (whole m) (whole m').
(** the outcome on both: the same flags on the same cells and the same answer everywhere *)
Definition same_outcome {N} (r r' : list (rank N) * list bool) : Prop :=
  Permutation (concat (fst r)) (concat (fst r')) /\ (forall a b, In a (snd r) -> In b (snd r') -> a = b).

(** ** Auxiliary *)
Lemma fold_max (l : list Z) a x : 0 <= a -> In x l \/ x = a -> Forall (fun k => k <= x) l -> a <= x -> fold_left Z.max l a = x.
Proof.
  revert a. induction l as [|y l IH]; intros a Ha I F L; cbn.
  - destruct I as [[]|E]; lia.
  - inversion F as [|? ? F1 F2]; subst. apply IH; try lia; auto.
    destruct I as [[->|I]|E]; [right; lia|left; auto|]. subst. right. lia.
Qed.
Lemma level_limit_finest s l : 0 <= l -> finest s l -> level_limit s = l.
Proof.
  intros H0 (I & F). unfold level_limit, n_levels. rewrite (fold_max _ 0 (l + 1)); try lia.
  - left. apply in_map_iff. exists l. auto.
  - apply Forall_forall. intros k K. apply in_map_iff in K as (j & <- & K). rewrite Forall_forall in F. specialize (F j K). lia.
Qed.
Lemma limits_equal {N} l seen (m : list (process N)) : 0 <= l -> everybody_saw l seen -> limits_from seen m -> Forall (fun p => p_lower p = l) m.
Proof.
  intros H0 E L. unfold everybody_saw in E. induction L as [|s p seen m H L IH]; constructor; inversion E; subst.
  - rewrite H. apply level_limit_finest; auto.
  - apply IH; auto.
Qed.
Lemma permutation_map_concat {A B} (f : A -> B) (m m' : list (list A)) :
  Permutation (concat m) (concat m') -> Permutation (concat (map (map f) m)) (concat (map (map f) m')).
Proof. intros P. rewrite <- !concat_map. apply Permutation_map, P. Qed.
Lemma existsb_concat {A} (f : A -> bool) (m : list (list A)) : existsb f (concat m) = existsb (fun b => b) (map (existsb f) m).
Proof. induction m as [|r m IH]; [reflexivity|]. cbn. rewrite existsb_app, IH. reflexivity. Qed.
Lemma existsb_permutation {A} (f : A -> bool) l l' : Permutation l l' -> existsb f l = existsb f l'.
Proof.
  intros P. apply Bool.eq_iff_eq_true. rewrite !existsb_exists. split; intros (x & I & H); exists x; split; auto.
  - eapply Permutation_in; eauto. - eapply Permutation_in; [apply Permutation_sym|]; eauto.
Qed.
Lemma mark_loop_map {N} f (r : rank N) : mark_loop f r = (map (fun c => fst (f c)) r, existsb (fun c => snd (f c)) r).
Proof. induction r as [|c r IH]; [reflexivity|]. rewrite mark_loop_cons, IH. reflexivity. Qed.
(** the first loop of the level set routine, seen through the second *)
Lemma probe_then_mark {N} lo up no (r : rank N) :
  map (mark_level_set_cell lo up) (fst (probe lo up no r)) = map (mark_level_set_cell lo up) r.
Proof.
  destruct (probe_spec lo up no r) as (P & _ & _). induction P as [|c' c r' r Hc P IH]; cbn; [reflexivity|]. f_equal; auto.
  unfold same_cell in Hc. rewrite Hc. unfold mark_level_set_cell. cbn. repeat (destruct (_ && _)); reflexivity.
Qed.
Lemma probe_nothing {N} lo up no (r : rank N) : snd (probe lo up no r) = false ->
  fst (probe lo up no r) = map (fun c => with_flags c no_flags) r.
Proof.
  induction r as [|c r IH]; cbn; [reflexivity|]. destruct (probe_cell lo up no c); [discriminate|].
  destruct (probe lo up no r) as [t b]. cbn in *. intros E. f_equal; auto.
Qed.
Lemma map_ext_Forall {A B} (P : A -> Prop) (f g : A -> B) l : Forall P l -> (forall x, P x -> f x = g x) -> map f l = map g l.
Proof. intros F H. induction F; cbn; [reflexivity|]. f_equal; auto. Qed.

Section Outcome.
Context {N : Num}.
(** with equal limits the marks and the answer are functions of the whole mesh *)
Lemma level_set_function adaptive no l (m : list (process N)) : adaptive <> 0 -> Forall (fun p => p_lower p = l) m ->
  let go := existsb (probe_cell l (adaptive + l) no) (whole m) in
  concat (fst (mark_level_set_on adaptive no m)) =
    map (fun c => if go then mark_level_set_cell l (adaptive + l) c else with_flags c no_flags) (whole m) /\
  snd (mark_level_set_on adaptive no m) = map (fun _ => go) m.
Proof.
  intros Ha F. cbv zeta. unfold mark_level_set_on. destruct (Z.eqb_spec adaptive 0) as [X|_]; [contradiction|].
  rewrite mpi_or_spec, map_map.
  rewrite (map_ext_Forall _ (fun p => snd (probe (p_lower p) (adaptive + p_lower p) no (p_cells p)))
             (fun p => existsb (probe_cell l (adaptive + l) no) (p_cells p)) m F) by (intros p ->; apply probe_spec).
  assert (G : existsb (fun b => b) (map (fun p => existsb (probe_cell l (adaptive + l) no) (p_cells p)) m) =
              existsb (probe_cell l (adaptive + l) no) (whole m)).
  { unfold whole. rewrite existsb_concat, map_map. reflexivity. }
  rewrite G. destruct (existsb (probe_cell l (adaptive + l) no) (whole m)) eqn:E; cbn [negb fst snd]; (split; [|reflexivity]).
  - unfold whole. rewrite concat_map, map_map. f_equal. apply (map_ext_Forall _ _ _ m F).
    intros p ->. apply probe_then_mark.
  - unfold whole in E |- *. rewrite concat_map, !map_map. f_equal.
    assert (K : Forall (fun p => p_lower p = l /\ existsb (probe_cell l (adaptive + l) no) (p_cells p) = false) m).
    { apply Forall_forall. intros p I. rewrite Forall_forall in F. split; [apply F, I|].
      destruct (existsb (probe_cell l (adaptive + l) no) (p_cells p)) eqn:X; [|reflexivity]. exfalso.
      rewrite existsb_concat, map_map in E. rewrite <- Bool.not_true_iff_false in E. apply E. apply existsb_exists.
      exists true. split; [|auto]. apply in_map_iff. exists p. auto. }
    apply (map_ext_Forall _ _ _ m K). intros p (-> & X). apply probe_nothing.
    destruct (probe_spec l (adaptive + l) no (p_cells p)) as (_ & -> & _). exact X.
Qed.
Lemma loop_function (f : process N -> cell N -> cell N * bool) (g : cell N -> cell N * bool) (m : list (process N)) :
  Forall (fun p => f p = g) m ->
  concat (map fst (map (fun p => mark_loop (f p) (p_cells p)) m)) = map (fun c => fst (g c)) (whole m) /\
  mpi_or (map snd (map (fun p => mark_loop (f p) (p_cells p)) m)) = existsb (fun c => snd (g c)) (whole m).
Proof.
  intros F. rewrite mpi_or_spec, !map_map. split.
  - unfold whole. rewrite concat_map, map_map. f_equal. apply (map_ext_Forall _ _ _ m F). intros p ->. rewrite mark_loop_map. reflexivity.
  - unfold whole. rewrite existsb_concat, map_map. f_equal. apply (map_ext_Forall _ _ _ m F). intros p ->. rewrite mark_loop_map. reflexivity.
Qed.
Lemma same_function (f : bool -> cell N -> cell N) (go : cell N -> bool) (m m' : list (process N)) (r r' : list (rank N) * list bool) :
  concat (fst r) = map (f (existsb go (whole m))) (whole m) -> snd r = map (fun _ => existsb go (whole m)) m ->
  concat (fst r') = map (f (existsb go (whole m'))) (whole m') -> snd r' = map (fun _ => existsb go (whole m')) m' ->
  same_mesh_distributed m m' -> same_outcome r r'.
Proof.
  intros A B A' B' P. unfold same_mesh_distributed in P. pose proof (existsb_permutation go _ _ P) as E.
  split.
  - rewrite A, A', E. apply Permutation_map, P.
  - rewrite B, B', E. intros a b I J. apply in_map_iff in I as (_ & <- & _). apply in_map_iff in J as (_ & <- & _). reflexivity.
Qed.
Lemma untouched (m m' : list (process N)) : same_mesh_distributed m m' ->
  same_outcome (map p_cells m, map (fun _ => false) m) (map p_cells m', map (fun _ => false) m').
Proof.
  intros P. split; [exact P|]. intros a b I J. apply in_map_iff in I as (_ & <- & _). apply in_map_iff in J as (_ & <- & _). reflexivity.
Qed.
End Outcome.

(** ** C112 *)
(** All processes always give the same answer, so that they all adapt the mesh or all leave it: whatever the limits of the processes are. *)
Theorem C112_same_answer : forall (N : Num) adaptive step_no (m : list (process N)) a b,
  (In a (snd (mark_level_set_on adaptive step_no m)) -> In b (snd (mark_level_set_on adaptive step_no m)) -> a = b) /\
  (In a (snd (mark_phase_field_on adaptive step_no m)) -> In b (snd (mark_phase_field_on adaptive step_no m)) -> a = b) /\
  (In a (snd (mark_two_phase_on adaptive step_no m)) -> In b (snd (mark_two_phase_on adaptive step_no m)) -> a = b) /\
  length (snd (mark_level_set_on adaptive step_no m)) = length m /\
  length (snd (mark_phase_field_on adaptive step_no m)) = length m /\
  length (snd (mark_two_phase_on adaptive step_no m)) = length m.
Proof.
  intros N adaptive no m a b.
  assert (K : forall c : bool, In a (map (fun _ => c) m) -> In b (map (fun _ => c) m) -> a = b).
  { intros c I J. apply in_map_iff in I as (_ & <- & _). apply in_map_iff in J as (_ & <- & _). reflexivity. }
  unfold mark_level_set_on, mark_phase_field_on, mark_two_phase_on.
  destruct (adaptive =? 0); cbn [orb snd]; [|destruct (no mod 5 =? 0); cbn [negb snd]; destruct (mpi_or _); cbn [negb snd]];
    repeat match goal with |- _ /\ _ => split end; try (apply K); rewrite map_length; reflexivity.
Qed.
Print Assumptions C112_same_answer.

(** The answer is "adapt" exactly if some process has a cell that asks for it by the process's own limits (level set solver). *)
Theorem C112_answer : forall (N : Num) adaptive step_no (m : list (process N)) a, adaptive <> 0 ->
  In a (snd (mark_level_set_on adaptive step_no m)) ->
  (a = true <-> exists p c, In p m /\ In c (p_cells p) /\
     ((c_level c < p_lower p + adaptive /\ ngtb (c_distance c) (nlit (-35#10)) = true) \/
      (step_no = 0 /\ p_lower p < c_level c /\ nltb (c_distance c) (nlit (-8#1)) = true))).
Proof.
  intros N adaptive no m a Ha. unfold mark_level_set_on. destruct (Z.eqb_spec adaptive 0) as [X|_]; [contradiction|].
  rewrite mpi_or_spec, map_map.
  set (go := existsb (fun b => b) _).
  assert (G : go = true <-> exists p c, In p m /\ In c (p_cells p) /\
     ((c_level c < p_lower p + adaptive /\ ngtb (c_distance c) (nlit (-35#10)) = true) \/
      (no = 0 /\ p_lower p < c_level c /\ nltb (c_distance c) (nlit (-8#1)) = true))).
  { unfold go. rewrite existsb_exists. split.
    - intros (x & I & ->). apply in_map_iff in I as (p & E & I).
      destruct (probe_spec (p_lower p) (adaptive + p_lower p) no (p_cells p)) as (_ & P & _). rewrite P in E.
      apply existsb_exists in E as (c & Ic & Pc). exists p, c. split; [auto|]. split; [auto|]. unfold probe_cell in Pc.
      rewrite orb_true_iff, !andb_true_iff, !Z.ltb_lt, Z.eqb_eq in Pc. rewrite Z.add_comm. tauto.
    - intros (p & c & I & Ic & K). exists true. split; [|auto]. apply in_map_iff. exists p. split; [|auto].
      destruct (probe_spec (p_lower p) (adaptive + p_lower p) no (p_cells p)) as (_ & P & _). rewrite P.
      apply existsb_exists. exists c. split; [auto|]. unfold probe_cell.
      rewrite orb_true_iff, !andb_true_iff, !Z.ltb_lt, Z.eqb_eq. rewrite Z.add_comm in K. tauto. }
  clearbody go. destruct go; cbn [negb snd]; intros I; apply in_map_iff in I as (_ & <- & _); exact G.
Qed.
Print Assumptions C112_answer.

(** If every process stored a cell of the finest level when the simulation was set up, the mesh is adapted in the same way whatever the
    distribution of its cells, now and at setup: for the level set and the phase field solver, every mesh and indicator, any arithmetic.
    The two simulations may have different numbers of processes. *)
Theorem C112_distribution_partial : forall (N : Num) adaptive step_no l seen seen' (m m' : list (process N)),
  0 <= l -> everybody_saw l seen -> everybody_saw l seen' -> limits_from seen m -> limits_from seen' m' ->
  same_mesh_distributed m m' ->
  same_outcome (mark_level_set_on adaptive step_no m) (mark_level_set_on adaptive step_no m') /\
  same_outcome (mark_phase_field_on adaptive step_no m) (mark_phase_field_on adaptive step_no m').
Proof.
  intros N adaptive no l seen seen' m m' H0 S S' L L' P.
  pose proof (limits_equal l seen m H0 S L) as F. pose proof (limits_equal l seen' m' H0 S' L') as F'. split.
  - destruct (Z.eqb_spec adaptive 0) as [X|Ha].
    + subst. exact (untouched m m' P).
    + destruct (level_set_function adaptive no l m Ha F) as [A B]. destruct (level_set_function adaptive no l m' Ha F') as [A' B'].
      apply (same_function (fun go c => if go then mark_level_set_cell l (adaptive + l) c else with_flags c no_flags)
               (probe_cell l (adaptive + l) no) m m' _ _ A B A' B' P).
  - unfold mark_phase_field_on. destruct ((adaptive =? 0) || negb (no mod 5 =? 0)); [exact (untouched m m' P)|].
    set (g := mark_phase_field_cell (N:=N) l (adaptive + l)).
    destruct (loop_function (fun p => mark_phase_field_cell (p_lower p) (adaptive + p_lower p)) g m) as [A B].
    { apply Forall_impl with (2 := F). intros p ->. reflexivity. }
    destruct (loop_function (fun p => mark_phase_field_cell (p_lower p) (adaptive + p_lower p)) g m') as [A' B'].
    { apply Forall_impl with (2 := F'). intros p ->. reflexivity. }
    apply (same_function (fun _ c => fst (g c)) (fun c => snd (g c)) m m'); cbn [fst snd]; auto; rewrite ?B, ?B'; reflexivity.
Qed.
Print Assumptions C112_distribution_partial.

(** The routine of the base class needs in addition that the last stored cells of all processes have the same diameter. *)
Theorem C112_distribution_base_partial : forall (N : Num) adaptive step_no l h seen seen' (m m' : list (process N)),
  0 <= l -> everybody_saw l seen -> everybody_saw l seen' -> limits_from seen m -> limits_from seen' m' ->
  Forall (fun p => p_last p = h) m -> Forall (fun p => p_last p = h) m' ->
  same_mesh_distributed m m' ->
  same_outcome (mark_two_phase_on adaptive step_no m) (mark_two_phase_on adaptive step_no m').
Proof.
  intros N adaptive no l h seen seen' m m' H0 S S' L L' D D' P.
  pose proof (limits_equal l seen m H0 S L) as F. pose proof (limits_equal l seen' m' H0 S' L') as F'.
  unfold mark_two_phase_on. destruct ((adaptive =? 0) || negb (no mod 5 =? 0)); [exact (untouched m m' P)|].
  set (g := mark_two_phase_cell (N:=N) l (adaptive + l) h).
  assert (K : forall m : list (process N), Forall (fun p => p_lower p = l) m -> Forall (fun p => p_last p = h) m ->
            Forall (fun p => mark_two_phase_cell (p_lower p) (adaptive + p_lower p) (p_last p) = g) m).
  { intros n A B. apply Forall_forall. intros p I. rewrite Forall_forall in A, B. rewrite (A p I), (B p I). reflexivity. }
  destruct (loop_function (fun p => mark_two_phase_cell (p_lower p) (adaptive + p_lower p) (p_last p)) g m (K m F D)) as [A B].
  destruct (loop_function (fun p => mark_two_phase_cell (p_lower p) (adaptive + p_lower p) (p_last p)) g m' (K m' F' D')) as [A' B'].
  apply (same_function (fun _ c => fst (g c)) (fun c => snd (g c)) m m'); cbn [fst snd]; auto; rewrite ?B, ?B'; reflexivity.
Qed.
Print Assumptions C112_distribution_base_partial.

(** ** The violation *)
(** A process that stored no cell of the finest level at setup, for example one that owned no cell at all and so stored only the coarse mesh,
    keeps a smaller limit.  No cell it gets later is refined beyond its own limit, also where the level set asks for it; on a process with the
    limit of the whole mesh the same cell is refined. *)
Theorem C112_violation_limit : forall (N : Num) adaptive step_no (l : Z) (seen : list Z) (p q : process N) (others : list (process N)) (c : cell N),
  0 < adaptive -> p_lower p = level_limit seen -> p_lower q = l -> In c (p_cells q) ->
  level_limit seen + adaptive <= c_level c < l + adaptive ->
  let refined_by_first r := exists c', In c' (hd [] r) /\ c_level c' = c_level c /\ refine_flag (c_flags c') = true in
  ngtb (c_distance c) (nlit (-35#10)) = true -> ngtb (c_distance c) (nlit (-4#1)) = true ->
  ngtb (max_distance (c_values c)) (nlit (1#100)) = true ->
  (~ refined_by_first (fst (mark_level_set_on adaptive step_no (p :: others))) /\
     refined_by_first (fst (mark_level_set_on adaptive step_no (q :: others)))) /\
  (step_no mod 5 = 0 -> ~ refined_by_first (fst (mark_phase_field_on adaptive step_no (p :: others))) /\
     refined_by_first (fst (mark_phase_field_on adaptive step_no (q :: others)))).
Proof.
  intros N adaptive no l seen p q others c Ha Hp Hq I (B1 & B2). cbv zeta. intros D0 D V. split; [split|].
  - intros (c' & I' & L' & R'). unfold mark_level_set_on in I'. destruct (Z.eqb_spec adaptive 0) as [X|_]; [lia|]. cbn [map] in I'. rewrite Hp in I'.
    rewrite mpi_or_spec in I'. cbn [existsb] in I'.
    destruct (snd (probe (level_limit seen) (adaptive + level_limit seen) no (p_cells p)) || _) eqn:E; cbn [negb fst hd] in I'.
    + rewrite probe_then_mark in I'. apply in_map_iff in I' as (d & <- & _).
      destruct (level_set_cell (level_limit seen) (adaptive + level_limit seen) d) as [_ Sm]. apply (f_equal c_level) in Sm. cbn in Sm. rewrite Sm in L'. clear Sm.
      revert R'. unfold mark_level_set_cell.
      destruct (Z.ltb_spec (c_level d) (adaptive + level_limit seen)) as [Y|Y]; cbn [andb]; [lia|]. destruct (_ && _); discriminate.
    + apply orb_false_iff in E as [E _]. rewrite (probe_nothing _ _ _ _ E) in I'. apply in_map_iff in I' as (d & <- & _). discriminate.
  - unfold mark_level_set_on. destruct (Z.eqb_spec adaptive 0) as [X|_]; [lia|]. cbn [map]. rewrite Hq.
    rewrite mpi_or_spec. cbn [existsb].
    destruct (probe_spec l (adaptive + l) no (p_cells q)) as (_ & -> & _).
    assert (E : existsb (probe_cell l (adaptive + l) no) (p_cells q) = true).
    { apply existsb_exists. exists c. split; [auto|]. unfold probe_cell. destruct (Z.ltb_spec (c_level c) (adaptive + l)); [|lia]. rewrite D0. reflexivity. }
    rewrite E. cbn [orb negb fst hd]. rewrite probe_then_mark. exists (mark_level_set_cell l (adaptive + l) c).
    split; [apply in_map, I|]. unfold mark_level_set_cell. destruct (Z.ltb_spec (c_level c) (adaptive + l)); [|lia]. rewrite D, orb_true_r. split; reflexivity.
  - intros M. unfold mark_phase_field_on. rewrite M. destruct (Z.eqb_spec adaptive 0) as [X|_]; [lia|].
    cbn [orb Z.eqb negb map fst hd]. rewrite !mark_loop_map, Hp, Hq. cbn [fst]. split.
    + intros (c' & I' & L' & R'). apply in_map_iff in I' as (d & <- & _).
      destruct (phase_field_cell (level_limit seen) (adaptive + level_limit seen) d) as (_ & Sm & _).
      apply (f_equal c_level) in Sm. cbn in Sm. rewrite Sm in L'. clear Sm. revert R'. unfold mark_phase_field_cell.
      destruct (Z.ltb_spec (c_level d) (adaptive + level_limit seen)) as [Y|Y]; cbn [andb]; [lia|]. destruct (_ && _); discriminate.
    + exists (fst (mark_phase_field_cell l (adaptive + l) c)). split; [apply in_map_iff; exists c; auto|].
      unfold mark_phase_field_cell. destruct (Z.ltb_spec (c_level c) (adaptive + l)); [|lia]. rewrite V. split; reflexivity.
Qed.
Print Assumptions C112_violation_limit.

(** ** Concrete cases *)
(** A uniform mesh of level 1, one adaptive level; cell A at the interface, B far from it. *)
Definition cell_A : cell QNum := MkCell (N:=QNum) 1 no_flags 0%Q [] (-1#1)%Q (-1#1)%Q [0%Q].
Definition cell_B : cell QNum := MkCell (N:=QNum) 1 (MkFlags true false) 0%Q [] (-20#1)%Q (-20#1)%Q [1%Q].
Definition serial : list (process QNum) := [MkProcess (N:=QNum) (level_limit [0; 1; 1]) 1%Q [cell_A; cell_B]].
Definition two : list (process QNum) := [MkProcess (N:=QNum) (level_limit [0; 1]) 1%Q [cell_B]; MkProcess (N:=QNum) (level_limit [0; 1]) 1%Q [cell_A]].
(** the second process owned no cell at setup and knows only the coarse cell *)
Definition idle : list (process QNum) := [MkProcess (N:=QNum) (level_limit [0]) 1%Q [cell_A]; MkProcess (N:=QNum) (level_limit [0; 1]) 1%Q [cell_B]].
Example C112_nonvacuous :
  everybody_saw 1 [[0; 1; 1]] /\ everybody_saw 1 [[0; 1]; [0; 1]] /\
  limits_from [[0; 1; 1]] serial /\ limits_from [[0; 1]; [0; 1]] two /\
  same_mesh_distributed serial two /\ same_mesh_distributed serial idle /\
  map (map (fun c => refine_flag (c_flags c))) (fst (mark_level_set_on 1 0 serial)) = [[true; false]] /\
  map (map (fun c => refine_flag (c_flags c))) (fst (mark_level_set_on 1 0 two)) = [[false]; [true]] /\
  snd (mark_level_set_on 1 0 two) = [true; true] /\
  map (map (fun c => refine_flag (c_flags c))) (fst (mark_level_set_on 1 0 idle)) = [[false]; [false]].
Proof.
  assert (F : forall s, In s [[0; 1; 1]; [0; 1]] -> finest s 1).
  { intros s [<-|[<-|[]]]; (split; [cbn; tauto|repeat (apply Forall_cons; [lia|]); apply Forall_nil]). }
  split; [apply Forall_cons; [apply F; cbn; tauto|apply Forall_nil]|].
  split; [apply Forall_cons; [apply F; cbn; tauto|apply Forall_cons; [apply F; cbn; tauto|apply Forall_nil]]|].
  split; [constructor; [reflexivity|constructor]|].
  split; [constructor; [reflexivity|constructor; [reflexivity|constructor]]|].
  split; [apply perm_swap|]. split; [apply Permutation_refl|].
  repeat (split; [vm_compute; reflexivity|]). vm_compute; reflexivity.
Qed.
