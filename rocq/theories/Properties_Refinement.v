(** * Property theorems C23: mesh adaptation *)
From Coq Require Import ZArith QArith Reals Bool List Lia Lra.
From Verif Require Import Num Model_Refinement.
Import ListNotations.
Open Scope Z_scope.

(** ** Specification *)
Section Spec.
Context {N : Num}.
(** the flags of a cell respect the level limits and do not contradict each other *)
Definition admissible (lower upper : Z) (c : cell N) : Prop :=
  (refine_flag (c_flags c) = true -> c_level c < upper) /\
  (coarsen_flag (c_flags c) = true -> lower < c_level c) /\
  ~ (refine_flag (c_flags c) = true /\ coarsen_flag (c_flags c) = true).
Definition flagged (c : cell N) : Prop :=
  refine_flag (c_flags c) = true \/ coarsen_flag (c_flags c) = true.
(** marking changes nothing but flags *)
Definition same_cell (a b : cell N) : Prop := a = with_flags b (c_flags a).
Definition same_mesh (a b : list (rank N)) : Prop := Forall2 (Forall2 same_cell) a b.
(** the three marking routines *)
Inductive routine := TwoPhase (h_to_3 : N) | PhaseField | LevelSet.
Definition mark (r : routine) (adaptive lower step_no : Z) (m : list (rank N)) : list (rank N) * list bool :=
  match r with
  | TwoPhase h => mark_two_phase adaptive lower step_no h m
  | PhaseField => mark_phase_field adaptive lower step_no m
  | LevelSet => mark_level_set adaptive lower step_no m
  end.
End Spec.
Arguments routine : clear implicits.

(** ** Auxiliary *)
Section Aux.
Context {N : Num}.
Ltac flg := unfold admissible, flagged; cbn; intuition (try discriminate; try lia; try reflexivity).
Lemma mpi_or_spec l : mpi_or l = existsb (fun b => b) l.
Proof.
  unfold mpi_or.
  assert (H : forall l a, 0 <= a -> (fold_left Z.max (map (fun b : bool => if b then 1 else 0) l) a =? 0) = (a =? 0) && negb (existsb (fun b => b) l)).
  { clear l. induction l as [|b l IH]; intros a Ha; cbn [map fold_left existsb].
    - rewrite andb_true_r; reflexivity.
    - rewrite IH by (destruct b; lia). destruct b; cbn [orb negb]; rewrite ?andb_false_r; [|f_equal; f_equal; lia].
      destruct (Z.eqb_spec (Z.max a 1) 0); [lia|reflexivity]. }
  rewrite H by lia. cbn. rewrite negb_involutive. reflexivity.
Qed.
Lemma same_refl (c : cell N) f : same_cell (with_flags c f) c.
Proof. reflexivity. Qed.
Lemma same_id (c : cell N) : same_cell c c.
Proof. destruct c; reflexivity. Qed.
Lemma same_trans (a b c : cell N) : same_cell a b -> same_cell b c -> same_cell a c.
Proof. unfold same_cell. intros -> ->. destruct c; reflexivity. Qed.
Lemma mark_loop_cons f (c : cell N) r :
  mark_loop f (c :: r) = (fst (f c) :: fst (mark_loop f r), snd (f c) || snd (mark_loop f r)).
Proof. unfold mark_loop. cbn. destruct (f c). reflexivity. Qed.
Lemma mark_loop_spec f (r : rank N) (P : cell N -> Prop) :
  (forall c, P (fst (f c)) /\ same_cell (fst (f c)) c /\ (snd (f c) = true <-> flagged (fst (f c)))) ->
  Forall P (fst (mark_loop f r)) /\ Forall2 same_cell (fst (mark_loop f r)) r /\
  (snd (mark_loop f r) = true <-> Exists flagged (fst (mark_loop f r))).
Proof.
  intros H. induction r as [|c r (I1 & I2 & I3)].
  - cbn. split; [constructor|]. split; [constructor|]. split; [discriminate|]. intros E; inversion E.
  - rewrite mark_loop_cons. cbn [fst snd]. destruct (H c) as (A & B & C).
    split; [constructor; auto|]. split; [constructor; auto|]. rewrite orb_true_iff, C, I3. rewrite Exists_cons. tauto.
Qed.
Lemma boundary_false l : fold_left (fun r at_boundary : bool => if at_boundary then false else r) l false = false.
Proof. induction l as [|[] l IH]; auto. Qed.
Lemma boundary_implies l r : fold_left (fun r at_boundary : bool => if at_boundary then false else r) l r = true -> r = true.
Proof. revert r; induction l as [|[] l IH]; intros r; cbn; auto. rewrite boundary_false. discriminate. Qed.
Lemma boundary_interior l r : fold_left (fun r at_boundary : bool => if at_boundary then false else r) l r = true -> existsb (fun b => b) l = false.
Proof. revert r; induction l as [|[] l IH]; intros r; cbn; auto. rewrite boundary_false. discriminate. apply IH. Qed.

Lemma two_phase_cell lower upper h c :
  let f := mark_two_phase_cell (N:=N) lower upper h in
  admissible lower upper (fst (f c)) /\ same_cell (fst (f c)) c /\ (snd (f c) = true <-> flagged (fst (f c))).
Proof.
  cbv zeta. unfold mark_two_phase_cell. destruct (fold_left _ _ _) eqn:E.
  - apply boundary_implies in E. apply andb_true_iff in E as [E _]. apply Z.ltb_lt in E.
    flg.
  - destruct (Z.ltb_spec lower (c_level c)); cbn [andb].
    + destruct (nltb _ _); flg.
    + flg.
Qed.
Lemma phase_field_cell lower upper c :
  let f := mark_phase_field_cell (N:=N) lower upper in
  admissible lower upper (fst (f c)) /\ same_cell (fst (f c)) c /\ (snd (f c) = true <-> flagged (fst (f c))).
Proof.
  cbv zeta. unfold mark_phase_field_cell. set (d := max_distance _).
  destruct (Z.ltb_spec (c_level c) upper), (Z.ltb_spec lower (c_level c)), (ngtb d _), (nltb d _); cbn [andb fst snd];
    flg.
Qed.
Lemma level_set_cell lower upper c :
  admissible lower upper (mark_level_set_cell (N:=N) lower upper c) /\ same_cell (mark_level_set_cell lower upper c) c.
Proof.
  unfold mark_level_set_cell.
  destruct (Z.ltb_spec (c_level c) upper), (Z.ltb_spec lower (c_level c)); cbn [andb];
  repeat (destruct (_ || _)); flg.
Qed.
Lemma probe_spec lower upper no (r : rank N) :
  Forall2 same_cell (fst (probe lower upper no r)) r /\
  (snd (probe lower upper no r) = existsb (probe_cell lower upper no) r) /\
  (snd (probe lower upper no r) = false -> Forall (fun c => c_flags c = no_flags) (fst (probe lower upper no r))).
Proof.
  induction r as [|c r (I1 & I2 & I3)]; cbn [probe].
  - cbn. repeat split; constructor.
  - cbn [existsb]. destruct (probe_cell lower upper no c).
    + cbn. split; [constructor; [reflexivity|]|split; [reflexivity|discriminate]].
      clear. induction r; constructor; auto. apply same_id.
    + destruct (probe lower upper no r) as [t b]. cbn in *. split; [constructor; auto; reflexivity|]. split; [auto|].
      intros E. constructor; auto.
Qed.
End Aux.

(** After a marking routine has said that the mesh is to be changed, on every process every cell carries
    admissible flags; otherwise no process sees a flagged cell (unless the routine was not due, in which
    case nothing was touched).  All processes get the same answer.  For every mesh, indicator, number of
    processes and arithmetic. *)
Theorem C23_marks_respect_limits :
  forall (N : Num) (r : routine N) (adaptive lower step_no : Z) (m : list (rank N)),
    let '(m', answers) := mark r adaptive lower step_no m in
    same_mesh m' m /\
    (exists a : bool, answers = map (fun _ => a) m /\
       (a = true -> Forall (Forall (admissible lower (lower + adaptive))) m') /\
       (a = false -> m' = m \/ Forall (Forall (fun c => ~ flagged c)) m')) /\
    (adaptive = 0 -> m' = m /\ existsb (fun b => b) answers = false).
Proof.
  intros N r adaptive lower no m.
  assert (Id : same_mesh m m).
  { unfold same_mesh. induction m as [|x m IH]; constructor; auto. induction x; constructor; auto. apply same_id. }
  assert (Nil : forall b, (b = true -> False) -> existsb (fun b => b) (map (fun _ : rank N => b) m) = false).
  { intros [] H; [destruct H; auto|]. clear. induction m; auto. }
  assert (Loop : forall f, (forall c, let f := f in admissible lower (adaptive + lower) (fst (f c)) /\ same_cell (fst (f c)) c /\ (snd (f c) = true <-> flagged (fst (f c)))) ->
     adaptive <> 0 ->
     same_mesh (map fst (map (mark_loop f) m)) m /\
     (exists a : bool, map (fun _ => mpi_or (map snd (map (mark_loop f) m))) m = map (fun _ => a) m /\
       (a = true -> Forall (Forall (admissible lower (lower + adaptive))) (map fst (map (mark_loop f) m))) /\
       (a = false -> map fst (map (mark_loop f) m) = m \/ Forall (Forall (fun c => ~ flagged c)) (map fst (map (mark_loop f) m)))) /\
     (adaptive = 0 -> map fst (map (mark_loop f) m) = m /\ existsb (fun b => b) (map (fun _ => mpi_or (map snd (map (mark_loop f) m))) m) = false)).
  { intros f Hf Ha. cbv zeta in Hf. split; [|split; [|contradiction]].
    - clear Nil Id. induction m as [|x m IH]; constructor; auto. cbn. apply (mark_loop_spec f x _ Hf).
    - eexists. split; [reflexivity|]. split.
      + intros _. rewrite (Z.add_comm lower). clear Nil Id. induction m as [|x m IH]; constructor; auto. cbn. apply (mark_loop_spec f x _ Hf).
      + intros E. right. rewrite mpi_or_spec in E. clear Nil Id. induction m as [|x m IH]; constructor.
        * cbn in E. apply orb_false_iff in E as [E _]. cbn. destruct (mark_loop_spec f x _ Hf) as (_ & _ & K).
          apply Forall_Exists_neg. intros X. apply K in X. congruence.
        * apply IH. cbn in E. apply orb_false_iff in E as [_ E]. exact E. }
  destruct r; cbn [mark].
  - unfold mark_two_phase. destruct (Z.eqb_spec adaptive 0) as [E|E]; cbn [orb].
    + split; [auto|]. split; [exists false; split; [auto|split; [discriminate|auto]]|]. intros _; split; [auto|apply Nil; discriminate].
    + destruct (negb _).
      * split; [auto|]. split; [exists false; split; [auto|split; [discriminate|auto]]|]. intros _; split; [auto|apply Nil; discriminate].
      * cbv zeta. apply Loop; auto. intros c. apply two_phase_cell.
  - unfold mark_phase_field. destruct (Z.eqb_spec adaptive 0) as [E|E]; cbn [orb].
    + split; [auto|]. split; [exists false; split; [auto|split; [discriminate|auto]]|]. intros _; split; [auto|apply Nil; discriminate].
    + destruct (negb _).
      * split; [auto|]. split; [exists false; split; [auto|split; [discriminate|auto]]|]. intros _; split; [auto|apply Nil; discriminate].
      * cbv zeta. apply Loop; auto. intros c. apply phase_field_cell.
  - unfold mark_level_set. destruct (Z.eqb_spec adaptive 0) as [E|E].
    + split; [auto|]. split; [exists false; split; [auto|split; [discriminate|auto]]|]. intros _; split; [auto|apply Nil; discriminate].
    + cbv zeta. set (P := map (probe lower (adaptive + lower) no) m). rewrite mpi_or_spec.
      destruct (existsb (fun b => b) (map snd P)) eqn:X; cbn [negb].
      * split.
        { unfold P. clear. induction m as [|x m IH]; constructor; auto. cbn.
          destruct (probe_spec lower (adaptive + lower) no x) as (H & _). revert H. set (y := fst _). clearbody y.
          intros H. induction H as [|a b la lb Hab H IHr]; cbn; constructor; auto.
          apply same_trans with a; auto. apply level_set_cell. }
        split; [|contradiction]. exists true. split; [auto|]. split; [|discriminate]. intros _. rewrite (Z.add_comm lower).
        rewrite Forall_map. apply Forall_forall. intros x _. rewrite Forall_map. apply Forall_forall. intros c _. apply level_set_cell.
      * split.
        { unfold P. clear. induction m as [|x m IH]; constructor; auto. cbn. apply probe_spec. }
        split; [|contradiction]. exists false. split; [auto|]. split; [discriminate|]. intros _. right.
        revert X. unfold P. clear. induction m as [|x m IH]; constructor.
        -- cbn in *. apply orb_false_iff in X as [X _]. destruct (probe_spec lower (adaptive + lower) no x) as (_ & _ & K).
           specialize (K X). revert K. apply Forall_impl. intros c Hc [F|F]; rewrite Hc in F; discriminate.
        -- apply IH. cbn in X. apply orb_false_iff in X as [_ X]. exact X.
Qed.
Print Assumptions C23_marks_respect_limits.

(** ** what deal.II does with the flags: contract
    [smooths m m1]: prepare_coarsening_and_refinement() keeps the cells; it may drop coarsening flags, and
    add refinement flags only where some other cell would otherwise end up finer by two or surround the
    cell, that is, where refining does not exceed the finest level asked for already. *)
Section Execution.
Context {N : Num}.
Definition final_level (c : cell N) : Z := c_level c + (if refine_flag (c_flags c) then 1 else 0).
Definition smooths (m m1 : list (cell N)) : Prop :=
  forall c1, In c1 m1 -> exists c, In c m /\ c_level c1 = c_level c /\
    (coarsen_flag (c_flags c1) = true -> coarsen_flag (c_flags c) = true) /\
    (refine_flag (c_flags c1) = true -> refine_flag (c_flags c) = true \/
       exists d, In d m /\ c_level c + 1 <= final_level d).
(** execute_coarsening_and_refinement(): every new cell is a child of a cell flagged for refinement, the
    parent of cells flagged for coarsening, or an old cell without refinement flag.  Indicators are arbitrary. *)
Definition executes (m m' : list (cell N)) : Prop :=
  forall c', In c' m' -> exists c, In c m /\
    ((refine_flag (c_flags c) = true /\ c_level c' = c_level c + 1) \/
     (coarsen_flag (c_flags c) = true /\ c_level c' = c_level c - 1) \/
     (refine_flag (c_flags c) = false /\ c_level c' = c_level c)).
(** refine_grid() (two_phase_base.cc:396-437): marking; if the answer is true, smoothing and execution;
    between two calls the indicators change arbitrarily *)
Inductive refine_grid (adaptive lower : Z) : list (rank N) -> list (rank N) -> Prop :=
| rg_skip r no m m' m'' : mark r adaptive lower no m = (m', map (fun _ => false) m) ->
    map (map c_level) m'' = map (map c_level) m -> refine_grid adaptive lower m m''
| rg_work r no m m' m1 m'' : mark r adaptive lower no m = (m', map (fun _ => true) m) ->
    smooths (concat m') m1 -> executes m1 (concat m'') -> refine_grid adaptive lower m m''.
Inductive refine_grids (adaptive lower : Z) : list (rank N) -> list (rank N) -> Prop :=
| rgs_nil m : refine_grids adaptive lower m m
| rgs_cons m m' m'' : refine_grids adaptive lower m m' -> refine_grid adaptive lower m' m'' -> refine_grids adaptive lower m m''.
Definition levels_in (a b : Z) (m : list (rank N)) : Prop := forall c, In c (concat m) -> a <= c_level c <= b.

Lemma in_concat_levels (m m'' : list (rank N)) c :
  map (map c_level) m'' = map (map c_level) m -> In c (concat m'') -> exists d, In d (concat m) /\ c_level d = c_level c.
Proof.
  intros E H. assert (X : In (c_level c) (map c_level (concat m''))) by (apply in_map; auto).
  rewrite concat_map, E, <- concat_map in X. apply in_map_iff in X as (d & ? & ?). eauto.
Qed.
Lemma same_mesh_in (a b : list (rank N)) c : same_mesh a b -> In c (concat a) -> exists d, In d (concat b) /\ c_level d = c_level c.
Proof.
  intros H. induction H as [|x y a b Hxy H IH]; cbn; [intros []|]. rewrite !in_app_iff. intros [K|K].
  - assert (exists d, In d y /\ c_level d = c_level c) as (d & D1 & D2).
    { clear -Hxy K. induction Hxy as [|u v x y Huv H IH]; [destruct K|]. destruct K as [->|K].
      - exists v. split; [left; auto|]. rewrite Huv. reflexivity.
      - destruct (IH K) as (d & ? & ?). exists d; split; [right|]; auto. }
    exists d. split; [apply in_app_iff; auto|auto].
  - destruct (IH K) as (d & ? & ?). exists d. split; [apply in_app_iff; auto|auto].
Qed.
End Execution.

(** In every simulation: [lower] is the finest level at setup (refine_lower_level_limit = n_levels - 1),
    [coarsest] the coarsest.  However often the mesh is adapted, by whichever routine, with whatever
    indicator fields and partition: no cell is ever finer than lower + adaptive_refinements, and no cell
    coarser than [coarsest]. *)
Theorem C23_levels_stay_within_limits :
  forall (N : Num) (adaptive lower coarsest : Z) (m m' : list (rank N)),
    0 <= adaptive -> levels_in coarsest lower m -> coarsest <= lower ->
    refine_grids adaptive lower m m' ->
    levels_in coarsest (lower + adaptive) m'.
Proof.
  intros N adaptive lower coarsest m m' Ha H0 Hc H.
  assert (H1 : levels_in coarsest (lower + adaptive) m) by (intros c Hin; specialize (H0 c Hin); lia). clear H0.
  induction H as [|m m' m'' H IH R]; auto. specialize (IH H1). clear H1 H. rename IH into H1.
  revert H1. clear m. destruct R as [r no m mm mm2 E L | r no m mm m1 mm2 E S X]; intros H1; rename mm into m'; rename mm2 into m''.
  - intros c Hin. destruct (in_concat_levels _ _ _ L Hin) as (d & Hd & <-). auto.
  - pose proof (C23_marks_respect_limits N r adaptive lower no m) as K. rewrite E in K.
    destruct K as (K1 & (a & K2 & K3 & _) & K4).
    destruct m as [|r0 m].
    { inversion K1; subst. intros c' Hc'. destruct (X c' Hc') as (c1 & Hc1 & _).
      destruct (S c1 Hc1) as (c & Hc0 & _). destruct Hc0. }
    assert (a = true) as -> by (cbn in K2; congruence). specialize (K3 eq_refl).
    assert (A : forall c, In c (concat m') -> admissible lower (lower + adaptive) c /\ coarsest <= c_level c <= lower + adaptive).
    { intros c Hc0. split.
      - apply in_concat in Hc0 as (x & Hx & Hcx). rewrite Forall_forall in K3. specialize (K3 x Hx). rewrite Forall_forall in K3. auto.
      - destruct (same_mesh_in _ _ _ K1 Hc0) as (d & Hd & <-). auto. }
    intros c' Hc'. destruct (X c' Hc') as (c1 & Hc1 & D). destruct (S c1 Hc1) as (c & Hc0 & El & Sc & Sr).
    destruct (A c Hc0) as ((A1 & A2 & _) & A3).
    destruct D as [[D1 D2]|[[D1 D2]|[D1 D2]]]; [|specialize (A2 (Sc D1)); lia|lia].
    destruct (Sr D1) as [F|(d & Hd & F)]; [specialize (A1 F); lia|].
    destruct (A d Hd) as ((B1 & _) & B3). unfold final_level in F. destruct (refine_flag (c_flags d)); [specialize (B1 eq_refl)|]; lia.
Qed.
Print Assumptions C23_levels_stay_within_limits.

(** If the answer is true, some cell carries a flag: no mesh is rebuilt in vain (exact arithmetic). *)
Theorem C23_answer_true_means_some_cell_is_marked :
  forall (r : routine RNum) (adaptive lower step_no : Z) (m : list (rank RNum)),
    let '(m', answers) := mark r adaptive lower step_no m in
    In true answers -> exists c, In c (concat m') /\ flagged c.
Proof.
  intros r adaptive lower no m.
  assert (Fl : ~ In true (map (fun _ : rank RNum => false) m)).
  { intros H. apply in_map_iff in H as (? & ? & _). discriminate. }
  assert (Loop : forall f, (forall c, admissible lower (adaptive + lower) (fst (f c)) /\ same_cell (fst (f c)) c /\ (snd (f c) = true <-> flagged (fst (f c)))) ->
     In true (map (fun _ : rank RNum => mpi_or (map snd (map (mark_loop f) m))) m) -> exists c, In c (concat (map fst (map (mark_loop f) m))) /\ flagged c).
  { intros f Hf H. apply in_map_iff in H as (_ & H & _). rewrite mpi_or_spec in H. apply existsb_exists in H as (b & Hb & ->).
    apply in_map_iff in Hb as (y & Hy & Hin). apply in_map_iff in Hin as (x & <- & Hx).
    apply (mark_loop_spec f x _ Hf) in Hy. apply Exists_exists in Hy as (c & H1 & H2). exists c. split; auto.
    apply in_concat. exists (fst (mark_loop f x)). split; auto. apply in_map, in_map. auto. }
  destruct r; cbn [mark].
  - unfold mark_two_phase. destruct (_ || _); [tauto|]. cbv zeta. apply Loop. intros; apply two_phase_cell.
  - unfold mark_phase_field. destruct (_ || _); [tauto|]. cbv zeta. apply Loop. intros; apply phase_field_cell.
  - unfold mark_level_set. destruct (_ =? _); [tauto|]. cbv zeta. rewrite mpi_or_spec.
    set (upper := adaptive + lower).
    destruct (existsb _ _) eqn:E; cbn [negb]; [|tauto]. intros _.
    apply existsb_exists in E as (b & Hb & ->). apply in_map_iff in Hb as (y & Hy & Hin). apply in_map_iff in Hin as (x & <- & Hx).
    destruct (probe_spec lower upper no x) as (P1 & P2 & _). rewrite P2 in Hy. apply existsb_exists in Hy as (c & Hc & Pc).
    assert (exists c0, In c0 (fst (probe lower upper no x)) /\ same_cell c0 c) as (c0 & I0 & S0).
    { clear -P1 Hc. induction P1 as [|u v x y Huv H IH]; [destruct Hc|]. destruct Hc as [->|Hc]; [exists u; split; [left|]; auto|].
      destruct (IH Hc) as (c0 & ? & ?). exists c0; split; [right|]; auto. }
    exists (mark_level_set_cell lower upper c0). split.
    { apply in_concat. exists (map (mark_level_set_cell lower upper) (fst (probe lower upper no x))). split; [|apply in_map; auto].
      apply (in_map (map (mark_level_set_cell lower upper))). apply (in_map fst). apply in_map. auto. }
    rewrite S0. generalize (c_flags c0). intros fl. unfold mark_level_set_cell, flagged. cbn [c_level c_distance c_mod_distance with_flags].
    unfold probe_cell in Pc. unfold ngtb in *. rnum.
    replace (Q2R (-35#10)) with (-3.5)%R in * by (unfold Q2R; cbn; lra).
    replace (Q2R (-8#1)) with (-8)%R in * by (unfold Q2R; cbn; lra).
    replace (Q2R (-7#1)) with (-7)%R in * by (unfold Q2R; cbn; lra).
    replace (Q2R (-5#1)) with (-5)%R in * by (unfold Q2R; cbn; lra).
    replace (Q2R (-4#1)) with (-4)%R in * by (unfold Q2R; cbn; lra).
    apply orb_true_iff in Pc as [Pc|Pc].
    + apply andb_true_iff in Pc as [L D]. apply Rltb_true in D. rewrite L. cbn [andb].
      destruct (Rltb_spec (-4)%R (c_distance c)) as [G|G]; [|exfalso; rnum; lra]. rewrite orb_true_r. left; reflexivity.
    + apply andb_true_iff in Pc as [Pc D]. apply andb_true_iff in Pc as [_ L]. apply Rltb_true in D. rewrite L.
      destruct (_ && _); [left; reflexivity|]. cbn [andb].
      destruct (Rltb_spec (c_distance c) (-5)%R) as [G|G]; [|exfalso; rnum; lra]. rewrite orb_true_r. right; reflexivity.
Qed.
Print Assumptions C23_answer_true_means_some_cell_is_marked.

(** refine_grid_pressure_based(max_grid_level, ...): whatever flags the error estimator has set, no cell gets
    finer than max_grid_level, and coarsening flags stay. *)
Theorem C23_pressure_based_limit :
  forall (N : Num) (max_grid_level : Z) (m : list (rank N)) (m1 m' : list (cell N)),
    (forall c, In c (concat m) -> c_level c <= max_grid_level) ->
    (forall c, In c (concat (mark_pressure_based max_grid_level m)) -> refine_flag (c_flags c) = true -> c_level c < max_grid_level) /\
    map (map (fun c => coarsen_flag (c_flags c))) (mark_pressure_based max_grid_level m) = map (map (fun c => coarsen_flag (c_flags c))) m /\
    (smooths (concat (mark_pressure_based max_grid_level m)) m1 -> executes m1 m' ->
       forall c', In c' m' -> c_level c' <= max_grid_level).
Proof.
  intros N mx m m1 m' H.
  assert (F : forall l a x, In x l -> x <= fold_left Z.max l a).
  { assert (G : forall l a, a <= fold_left Z.max l a) by (induction l as [|y l IH]; intros a; cbn; [lia|]; specialize (IH (Z.max a y)); lia).
    induction l as [|y l IH]; intros a x Hx; [destruct Hx|]. destruct Hx as [->|Hx]; cbn; [specialize (G l (Z.max a x)); lia|auto]. }
  assert (A : forall c, In c (concat (mark_pressure_based mx m)) -> c_level c <= mx /\ (refine_flag (c_flags c) = true -> c_level c < mx)).
  { intros c. unfold mark_pressure_based. cbv zeta. destruct (Z.ltb_spec mx (fold_left Z.max (map (fun c => c_level c + 1) (concat m)) 0)) as [L|L].
    - rewrite <- concat_map. intros Hc. apply in_map_iff in Hc as (d & <- & Hd). specialize (H d Hd).
      destruct (Z.leb_spec mx (c_level d)); cbn; split; try lia; try discriminate.
    - intros Hc. specialize (H c Hc). split; [lia|]. intros _.
      specialize (F (map (fun c => c_level c + 1) (concat m)) 0 (c_level c + 1)).
      assert (In (c_level c + 1) (map (fun c => c_level c + 1) (concat m))) by (apply (in_map (fun c => c_level c + 1)); auto). specialize (F H0). lia. }
  split; [intros c Hc; apply (A c Hc)|]. split.
  - unfold mark_pressure_based. cbv zeta. destruct (_ <? _); auto. rewrite map_map. apply map_ext. intros x. rewrite map_map. apply map_ext.
    intros c. destruct (_ <=? _); reflexivity.
  - intros S X c' Hc'. destruct (X c' Hc') as (c1 & Hc1 & D). destruct (S c1 Hc1) as (c & Hc0 & El & Sc & Sr).
    destruct (A c Hc0) as [A1 A2]. destruct D as [[D1 D2]|[[D1 D2]|[D1 D2]]]; [|lia|lia].
    destruct (Sr D1) as [G|(d & Hd & G)]; [specialize (A2 G); lia|].
    destruct (A d Hd) as [B1 B2]. unfold final_level in G. destruct (refine_flag (c_flags d)); [specialize (B2 eq_refl)|]; lia.
Qed.
Print Assumptions C23_pressure_based_limit.

(** a mesh on two processes with a refined, a coarsened and a limited cell *)
Definition ex_cell (l : Z) (d : Q) : cell RNum := MkCell (N:=RNum) l no_flags (Q2R d) [] (Q2R d) (Q2R d) [].
Definition ex_mesh : list (rank RNum) := [[ex_cell 2 (-1#1); ex_cell 3 (-1#1)]; [ex_cell 3 (-9#1); ex_cell 2 (-9#1)]].
Example C23_nonvacuous :
  levels_in 2 3 ex_mesh /\
  exists m', mark (LevelSet (N:=RNum)) 1 2 7 ex_mesh = (m', [true; true]) /\
    map (map (fun c => (refine_flag (c_flags c), coarsen_flag (c_flags c)))) m' = [[(true, false); (false, false)]; [(false, true); (false, false)]].
Proof.
  split.
  { intros c H. cbn in H. repeat (destruct H as [<-|H]; [cbn; lia|]). destruct H. }
  unfold ex_mesh, mark, mark_level_set, probe, probe_cell, ex_cell, mark_level_set_cell, ngtb. cbn [map c_level c_distance c_mod_distance].
  cbn [nltb RNum].
  assert (A1 : Rltb (Q2R (-35#10)) (Q2R (-1#1)) = true) by (apply Rltb_true; unfold Q2R; cbn; lra).
  assert (A2 : Rltb (Q2R (-4#1)) (Q2R (-1#1)) = true) by (apply Rltb_true; unfold Q2R; cbn; lra).
  assert (A3 : Rltb (Q2R (-5#1)) (Q2R (-9#1)) = false) by (apply Rltb_false; unfold Q2R; cbn; lra).
  assert (A4 : Rltb (Q2R (-9#1)) (Q2R (-5#1)) = true) by (apply Rltb_true; unfold Q2R; cbn; lra).
  assert (A5 : Rltb (Q2R (-9#1)) (Q2R (-8#1)) = true) by (apply Rltb_true; unfold Q2R; cbn; lra).
  assert (A6 : Rltb (Q2R (-1#1)) (Q2R (-8#1)) = false) by (apply Rltb_false; unfold Q2R; cbn; lra).
  assert (A7 : Rltb (Q2R (-1#1)) (Q2R (-5#1)) = false) by (apply Rltb_false; unfold Q2R; cbn; lra).
  assert (A8 : Rltb (Q2R (-35#10)) (Q2R (-9#1)) = false) by (apply Rltb_false; unfold Q2R; cbn; lra).
  assert (A9 : Rltb (Q2R (-4#1)) (Q2R (-9#1)) = false) by (apply Rltb_false; unfold Q2R; cbn; lra).
  assert (A10 : Rltb (Q2R (-7#1)) (Q2R (-9#1)) = false) by (apply Rltb_false; unfold Q2R; cbn; lra).
  assert (A11 : Rltb (Q2R (-7#1)) (Q2R (-1#1)) = true) by (apply Rltb_true; unfold Q2R; cbn; lra).
  cbn -[Rltb Q2R]. rewrite ?A1, ?A2, ?A3, ?A4, ?A5, ?A6, ?A7, ?A8, ?A9, ?A10, ?A11. cbn -[Rltb Q2R].
  rewrite ?A1, ?A2, ?A3, ?A4, ?A5, ?A6, ?A7, ?A8, ?A9, ?A10, ?A11. cbn -[Rltb Q2R].
  eexists. split; reflexivity.
Qed.
