(** * Property theorems C100: the records of statistics of the example programs *)
From Coq Require Import ZArith NArith QArith Reals List String Ascii Bool Lia Lra.
From Verif Require Import Num Model_TimeStepping Model_Output Model_Record Properties_Output.
From Verif Require NumQ.
Import ListNotations.
Open Scope string_scope.

(** ** Specification: what a run computes, without buffers and files *)
Section Spec.
Context {N : Num}.
(** the clock after one time step and after all of them *)
Definition step_clock (c : clock N) (d : step_data N) : clock N := run c (fst d ++ [Next])%list.
Definition end_clock (c : clock N) (ds : list (step_data N)) : clock N := fold_left step_clock ds c.
(** the clocks at the ends of the time steps *)
Fixpoint clocks (c : clock N) (ds : list (step_data N)) : list (clock N) :=
  match ds with [] => [] | d :: ds => step_clock c d :: clocks (step_clock c d) ds end.
(** the rows of statistics, one per time step, in order *)
Fixpoint rows_of (c : clock N) (ds : list (step_data N)) : list (row N) :=
  match ds with [] => [] | d :: ds => (now (step_clock c d) :: snd d) :: rows_of (step_clock c d) ds end.
Definition initial_rows (c : clock N) (i : option (list N)) : list (row N) :=
  match i with Some d => [now c :: d] | None => [] end.
End Spec.
Definition header_lines (h : option string) : list string := match h with Some l => [l] | None => [] end.
(** [l] is a beginning of [m] *)
Definition begins {A} (l m : list A) : Prop := exists r, m = (l ++ r)%list.
(** the lines in the order they were written, whatever the file *)
Definition lines_put (log : list action) : list string :=
  flat_map (fun a => match a with Put _ l => [l] | _ => [] end) log.
Definition file_of (a : action) : string := match a with Truncate f | Append f | Put f _ => f end.

(** ** Files *)
Definition tame (f : string) (w : list action) : Prop :=
  Forall (fun a => a = Append f \/ exists l, a = Put f l) w.
Definition content (fs : files) (f : string) : list string := match fs f with Some l => l | None => [] end.
Lemma perform_app fs l m : perform fs (l ++ m) = perform (perform fs l) m.
Proof. apply fold_left_app. Qed.
Lemma lines_app l m : lines_put (l ++ m) = (lines_put l ++ lines_put m)%list.
Proof. apply flat_map_app. Qed.
Lemma lines_cons a l : lines_put (a :: l) = (lines_put [a] ++ lines_put l)%list.
Proof. destruct a; reflexivity. Qed.
Lemma tame_perform f w : tame f w -> forall fs,
  content (perform fs w) f = (content fs f ++ lines_put w)%list /\
  (w <> [] \/ fs f <> None -> perform fs w f = Some (content fs f ++ lines_put w)%list) /\
  (forall g, g <> f -> perform fs w g = fs g).
Proof.
  induction w as [|a w IH]; intros T fs.
  - cbn. rewrite app_nil_r. split; [reflexivity|]. split; [|reflexivity].
    intros [H|H]; [congruence|]. unfold content. destruct (fs f); [reflexivity|congruence].
  - inversion T as [|x y Ha Hw]; subst. change (perform fs (a :: w)) with (perform (on_files fs a) w).
    destruct (IH Hw (on_files fs a)) as (I1 & I2 & I3).
    assert (Hs : on_files fs a f <> None).
    { destruct Ha as [->|[l ->]]; cbn; rewrite String.eqb_refl; discriminate. }
    assert (Hc : (content (on_files fs a) f ++ lines_put w = content fs f ++ lines_put (a :: w))%list).
    { unfold content. destruct Ha as [->|[l ->]]; cbn; rewrite String.eqb_refl.
      - reflexivity.
      - rewrite <- app_assoc. reflexivity. }
    rewrite <- Hc. split; [exact I1|]. split; [intros _; apply I2; right; exact Hs|].
    intros g Hg. rewrite (I3 g Hg). destruct Ha as [->|[l ->]]; cbn;
      (destruct (String.eqb_spec g f); [contradiction|reflexivity]).
Qed.

(** ** The time loop *)
Section Loop.
Context {N : Num}.
Variable text : N -> string.
Implicit Types (p : program N) (s : state N) (ds : list (step_data N)).

Lemma output_shape p s s' : pr_rank p = O -> output text p s = Some s' ->
  clk s' = clk s /\
  ((s' = s /\ (buffer s = [] \/ at_tick (clk s) (pr_frequency p) = Some false)) \/
   exists f, pr_file p (clk s) = Some f /\ at_tick (clk s) (pr_frequency p) = Some true /\ buffer s <> [] /\
     s' = MkState (clk s) [] false (log s ++ write_block text p f (first_output s) (buffer s))%list).
Proof.
  intros Hr. unfold output. rewrite Hr. cbn [Nat.eqb].
  destruct (buffer s) as [|r b] eqn:B.
  - intros [= <-]. split; [reflexivity|]. left. auto.
  - destruct (at_tick _ _) as [[]|] eqn:T; try discriminate.
    + destruct (pr_file p (clk s)) as [f|] eqn:F; [|discriminate]. intros [= <-]. split; [reflexivity|].
      right. exists f. split; [reflexivity|]. split; [reflexivity|]. split; [congruence|reflexivity].
    + intros [= <-]. split; [reflexivity|]. left. auto.
Qed.

Lemma body_clk p d s s' : body text p d s = Some s' -> clk s' = step_clock (clk s) d.
Proof.
  unfold body, output, step_clock. cbn [clk buffer first_output log].
  destruct (pr_add _ _ _); [intros [= <-]; reflexivity|].
  destruct (Nat.eqb _ _); [|intros [= <-]; reflexivity].
  destruct (at_tick _ _) as [[]|]; try discriminate; [|intros [= <-]; reflexivity].
  destruct (pr_file _ _); [intros [= <-]; reflexivity|discriminate].
Qed.
Lemma exec_clk p s ds s' : execution text p s ds s' -> clk s' = end_clock (clk s) ds.
Proof.
  induction 1 as [|s d s1 ds s2 _ B _ IH]; [reflexivity|]. rewrite IH, (body_clk _ _ _ _ B). reflexivity.
Qed.

Lemma lines_block p f b rows :
  lines_put (write_block text p f b rows) =
  ((if b then header_lines (pr_header p) else []) ++ map (line_of text) rows)%list.
Proof.
  assert (E : lines_put (map (fun r => Put f (line_of text r)) rows) = map (line_of text) rows).
  { induction rows as [|r rows IH]; [reflexivity|]. cbn. f_equal. exact IH. }
  unfold write_block. rewrite lines_cons, lines_app, E. destruct b; [destruct (pr_header p)|]; reflexivity.
Qed.
Lemma tame_block f rows : tame f (map (fun r => Put f (line_of text r)) rows).
Proof. apply Forall_forall. intros a Ha. apply in_map_iff in Ha as (r & <- & _). right. eauto. Qed.

(** all lines, in order, whatever the files *)
Lemma exec_lines p s ds s' : pr_rank p = O -> pr_add p = push -> execution text p s ds s' ->
  exists w written, log s' = (log s ++ w)%list /\
    (written ++ buffer s' = buffer s ++ rows_of (clk s) ds)%list /\
    lines_put w = ((if first_output s && negb (first_output s') then header_lines (pr_header p) else []) ++ map (line_of text) written)%list /\
    (first_output s' = true -> first_output s = true /\ w = []) /\
    (first_output s = false -> first_output s' = false).
Proof.
  intros Hr Ha. induction 1 as [s|s d s1 ds s2 E B X IH].
  - exists [], []. rewrite !app_nil_r. cbn. split; [reflexivity|]. split; [reflexivity|].
    split; [destruct (first_output s); reflexivity|]. split; [auto|auto].
  - unfold body in B. rewrite Ha in B. pose proof B as B'. apply output_shape in B' as (Hc & Hs); [|exact Hr].
    cbn [clk buffer first_output log] in Hc, Hs.
    destruct IH as (w & wr & L & W & P & F1 & F2). change (run _ _) with (step_clock (clk s) d) in *.
    cbn [rows_of]. rewrite Hc in W. destruct Hs as [[-> _]|(f & Hf & T & Nb & ->)]; cbn [buffer log first_output clk] in *.
    + exists w, wr. split; [exact L|]. split; [|split; [exact P|split; [exact F1|exact F2]]].
      rewrite W. unfold push. rewrite <- app_assoc. reflexivity.
    + exists (write_block text p f (first_output s) (push (buffer s) (now (step_clock (clk s) d) :: snd d)) ++ w)%list,
             (push (buffer s) (now (step_clock (clk s) d) :: snd d) ++ wr)%list.
      rewrite (F2 eq_refl) in *. split; [rewrite L, <- app_assoc; reflexivity|].
      split; [rewrite <- app_assoc, W; unfold push; rewrite <- app_assoc; reflexivity|].
      split; [rewrite lines_app, lines_block, P, map_app, <- app_assoc; destruct (first_output s); reflexivity|].
      split; [discriminate|auto].
Qed.

(** with one file name *)
Lemma exec_one_file p f s ds s' : pr_rank p = O -> pr_add p = push ->
  (forall c g, In c (clocks (clk s) ds) -> pr_file p c = Some g -> g = f) ->
  execution text p s ds s' ->
  exists w, log s' = (log s ++ w)%list /\
    (if first_output s then w = [] \/ exists w', w = Truncate f :: w' /\ tame f w'
     else tame f w).
Proof.
  intros Hr Ha Hn. induction 1 as [s|s d s1 ds s2 E B X IH].
  - exists []. rewrite app_nil_r. split; [reflexivity|]. destruct (first_output s); [auto|constructor].
  - unfold body in B. rewrite Ha in B. pose proof B as B'. apply output_shape in B' as (Hc & Hs); [|exact Hr].
    cbn [clk buffer first_output log] in Hc, Hs. change (run _ _) with (step_clock (clk s) d) in *.
    cbn [clocks] in Hn. destruct IH as (w & L & W).
    { intros c g Hi. apply Hn. right. rewrite Hc in Hi. exact Hi. }
    destruct Hs as [[-> _]|(g & Hf & T & Nb & ->)]; cbn [buffer log first_output clk] in *.
    + exists w. split; [exact L|exact W].
    + apply Hn in Hf; [|left; reflexivity]. subst g.
      eexists. split; [rewrite L, <- app_assoc; reflexivity|].
      set (rows := push _ _) in *.
      destruct (first_output s).
      * right. eexists. split; [reflexivity|]. unfold tame. rewrite !Forall_app. split; [|exact W]. split.
        -- destruct (pr_header p) as [h|]; [apply Forall_cons; [right; exists h; reflexivity|apply Forall_nil]|apply Forall_nil].
        -- apply tame_block.
      * unfold tame. rewrite Forall_app. split; [|exact W]. constructor; [left; reflexivity|]. apply tame_block.
Qed.

(** after a tick the buffer is empty *)
Lemma exec_tick p s ds s' : pr_rank p = O -> execution text p s ds s' -> ds <> [] ->
  at_tick (clk s') (pr_frequency p) = Some true -> buffer s' = [].
Proof.
  intros Hr. induction 1 as [s|s d s1 ds s2 E B X IH]; [congruence|]. intros _ T.
  destruct ds as [|d' ds].
  - inversion X; subst. unfold body in B. apply output_shape in B as (Hc & Hs); [|exact Hr].
    cbn [clk] in *. destruct Hs as [[-> [H|H]]|(f & _ & _ & _ & ->)]; cbn [buffer clk] in *; [exact H|congruence|reflexivity].
  - apply IH; [discriminate|exact T].
Qed.
Lemma at_end_tick (c : clock N) freq b : at_end c = true -> at_tick c freq = Some b -> b = true.
Proof.
  intros E. unfold at_tick. rewrite E. destruct (nint _); [|discriminate]. rewrite andb_false_r. congruence.
Qed.
Lemma exec_end_tick p s ds s' : pr_rank p = O -> execution text p s ds s' -> ds <> [] ->
  at_end (clk s') = true -> buffer s' = [].
Proof.
  intros Hr. induction 1 as [s|s d s1 ds s2 E B X IH]; [congruence|]. intros _ T.
  destruct ds as [|d' ds].
  - inversion X; subst. unfold body in B. apply output_shape in B as (Hc & Hs); [|exact Hr].
    cbn [clk] in *. destruct Hs as [[-> [H|H]]|(f & _ & _ & _ & ->)]; cbn [buffer clk] in *; [exact H| |reflexivity].
    apply at_end_tick in H; [discriminate|exact T].
  - apply IH; [discriminate|exact T].
Qed.

(** ** C100, any of the programs with plain buffering *)
(** At every moment of every run the lines written so far are, in order and without repetition, the header
    followed by a beginning of the rows computed so far; what is missing is what is still in memory; after
    a time step that is an output time (in particular the last one of a complete run) nothing is missing. *)
Theorem C100_every_row_once : forall p c initial ds s,
  pr_rank p = O -> pr_add p = push -> execution text p (start c initial) ds s ->
  clk s = end_clock c ds /\
  (exists written, (written ++ buffer s = initial_rows c initial ++ rows_of c ds)%list /\
     lines_put (log s) = ((if first_output s then [] else header_lines (pr_header p)) ++ map (line_of text) written)%list /\
     (first_output s = true -> log s = [])) /\
  (ds <> [] -> at_tick (end_clock c ds) (pr_frequency p) = Some true \/ at_end (end_clock c ds) = true ->
     buffer s = []).
Proof.
  intros p c i ds s Hr Ha X. pose proof (exec_clk _ _ _ _ X) as Hc. cbn [clk start] in Hc.
  split; [exact Hc|]. split.
  - destruct (exec_lines _ _ _ _ Hr Ha X) as (w & wr & L & W & P & F1 & _). cbn [start log buffer clk first_output] in *.
    exists wr. cbn in L. rewrite L. split; [exact W|]. split; [rewrite P; cbn; destruct (first_output s); reflexivity|].
    intros F. destruct (F1 F) as [_ ->]. reflexivity.
  - intros Hd [T|T]; rewrite <- Hc in T; [eapply exec_tick; eauto|eapply exec_end_tick; eauto].
Qed.

(** If the file name stays the same, the file holds exactly the header and the rows, whatever it held
    before, and no other file is touched. *)
Theorem C100_one_file : forall p c initial ds s f (fs : files),
  pr_rank p = O -> pr_add p = push -> execution text p (start c initial) ds s ->
  (forall c' g, In c' (clocks c ds) -> pr_file p c' = Some g -> g = f) ->
  (ds <> [] -> at_tick (end_clock c ds) (pr_frequency p) = Some true \/ at_end (end_clock c ds) = true ->
     initial_rows c initial ++ rows_of c ds <> [] -> perform fs (log s) f =
       Some (header_lines (pr_header p) ++ map (line_of text) (initial_rows c initial ++ rows_of c ds)))%list /\
  (forall g, g <> f -> perform fs (log s) g = fs g).
Proof.
  intros p c i ds s f fs Hr Ha X Hn.
  destruct (C100_every_row_once _ _ _ _ _ Hr Ha X) as (Hc & (wr & W & P & F) & T).
  destruct (exec_one_file p f (start c i) ds s Hr Ha Hn X) as (w & L & S). cbn in L. rewrite L in *. cbn [start first_output] in S.
  split.
  - intros Hd E Ne. rewrite (T Hd E), app_nil_r in W. destruct S as [->|(w' & -> & Tw)].
    + exfalso. cbn in P. rewrite <- W in Ne. destruct wr; [congruence|].
      destruct (first_output s); [discriminate|]. destruct (header_lines (pr_header p)); discriminate.
    + assert (first_output s = false) as F0 by (destruct (first_output s); [specialize (F eq_refl); discriminate|reflexivity]).
      rewrite F0, W in P. change (perform fs (Truncate f :: w')) with (perform (on_files fs (Truncate f)) w').
      destruct (tame_perform _ _ Tw (on_files fs (Truncate f))) as (_ & H & _). rewrite H.
      * unfold content. cbn. rewrite String.eqb_refl. cbn. change (lines_put (Truncate f :: w')) with (lines_put w') in P.
        rewrite P. reflexivity.
      * right. cbn. rewrite String.eqb_refl. discriminate.
  - intros g Hg. destruct S as [->|(w' & -> & Tw)]; [reflexivity|].
    change (perform fs (Truncate f :: w')) with (perform (on_files fs (Truncate f)) w').
    destruct (tame_perform _ _ Tw (on_files fs (Truncate f))) as (_ & _ & H). rewrite (H g Hg). cbn.
    destruct (String.eqb_spec g f); [contradiction|reflexivity].
Qed.

(** A crash at any point of a run (after any part [l] of the accesses to the file system) leaves the old
    file, or a beginning of the complete record: nothing wrong, nothing out of order. *)
Lemma begins_trans {A} (a b c : list A) : begins a b -> begins b c -> begins a c.
Proof. intros [r ->] [q ->]. exists (r ++ q)%list. now rewrite app_assoc. Qed.
Lemma map_begins {A B} (g : A -> B) a b : begins a b -> begins (map g a) (map g b).
Proof. intros [r ->]. exists (map g r). apply map_app. Qed.
Lemma app_begins {A} (h a b : list A) : begins a b -> begins (h ++ a)%list (h ++ b)%list.
Proof. intros [r ->]. exists r. now rewrite app_assoc. Qed.

Theorem C100_crash : forall p c initial ds s f (fs : files) l rest,
  pr_rank p = O -> pr_add p = push -> execution text p (start c initial) ds s ->
  (forall c' g, In c' (clocks c ds) -> pr_file p c' = Some g -> g = f) ->
  log s = (l ++ rest)%list ->
  (l = [] \/ exists lines, perform fs l f = Some lines /\
     begins lines (header_lines (pr_header p) ++ map (line_of text) (initial_rows c initial ++ rows_of c ds))%list) /\
  (forall g, g <> f -> perform fs l g = fs g).
Proof.
  intros p c i ds s f fs l rest Hr Ha X Hn HL.
  destruct (C100_every_row_once _ _ _ _ _ Hr Ha X) as (Hc & (wr & W & P & F) & T).
  destruct (exec_one_file p f (start c i) ds s Hr Ha Hn X) as (w & L & S). cbn in L. rewrite L in *. cbn [start first_output] in S.
  destruct l as [|a l].
  { split; [left; reflexivity|]. reflexivity. }
  destruct S as [->|(w' & -> & Tw)]; [discriminate|]. injection HL as <- ->.
  assert (first_output s = false) as F0 by (destruct (first_output s); [specialize (F eq_refl); discriminate|reflexivity]).
  unfold tame in Tw. rewrite Forall_app in Tw. destruct Tw as [Tl _].
  rewrite F0 in P. change (lines_put (Truncate f :: (l ++ rest)%list)) with (lines_put (l ++ rest)%list) in P. rewrite lines_app in P.
  change (perform fs (Truncate f :: l)) with (perform (on_files fs (Truncate f)) l).
  destruct (tame_perform _ _ Tl (on_files fs (Truncate f))) as (_ & H & G). split.
  - right. eexists. split; [apply H; right; cbn; rewrite String.eqb_refl; discriminate|].
    unfold content. cbn. rewrite String.eqb_refl. cbn.
    apply begins_trans with (header_lines (pr_header p) ++ map (line_of text) wr)%list.
    + exists (lines_put rest). symmetry. exact P.
    + apply app_begins, map_begins. exists (buffer s). symmetry. exact W.
  - intros g Hg. rewrite (G g Hg). cbn. destruct (String.eqb_spec g f); [contradiction|reflexivity].
Qed.

(** Processes other than the first one write nothing, and keep all rows in memory until the end. *)
Theorem C100_other_processes : forall p c initial ds s,
  pr_rank p <> O -> pr_add p = push -> execution text p (start c initial) ds s ->
  log s = [] /\ buffer s = (initial_rows c initial ++ rows_of c ds)%list.
Proof.
  intros p c i ds s Hr Ha X.
  assert (G : forall s0, execution text p s0 ds s -> log s = log s0 /\ buffer s = (buffer s0 ++ rows_of (clk s0) ds)%list).
  { intros s0. clear X. induction 1 as [s|s d s1 ds s2 E B X IH]; [rewrite app_nil_r; auto|].
    destruct IH as [L IH]. rewrite L, IH, (body_clk _ _ _ _ B). cbn [rows_of].
    unfold body, output in B. rewrite Ha in B. cbn [buffer clk log first_output] in B.
    destruct (push _ _) as [|r b] eqn:Q; [unfold push in Q; destruct (buffer s); discriminate|].
    destruct (Nat.eqb_spec (pr_rank p) 0); [contradiction|]. injection B as <-. cbn [buffer log].
    split; [reflexivity|]. rewrite <- Q. unfold push. rewrite <- app_assoc. reflexivity. }
  destruct (G _ X) as [-> ->]. split; reflexivity.
Qed.

(** ** The three programs *)
Lemma max_step_op (c : clock N) o : max_step_size (apply_op c o) = max_step_size c.
Proof. destruct o; reflexivity. Qed.
Lemma max_step_run (h : list (op N)) c : max_step_size (run c h) = max_step_size c.
Proof.
  unfold run. revert c; induction h as [|o h IH]; intros c; [reflexivity|]. cbn [fold_left]. rewrite IH. apply max_step_op.
Qed.
Lemma max_step_clocks ds : forall (c c' : clock N), In c' (clocks c ds) -> max_step_size c' = max_step_size c.
Proof.
  induction ds as [|d ds IH]; intros c c'; [intros []|]. cbn. intros [<-|H].
  - apply max_step_run.
  - rewrite (IH _ _ H). apply max_step_run.
Qed.

(** micro_particle: one file for the whole run, whatever the time steps are. *)
Theorem C100_micro_particle : forall frequency base adaptive global c data ds s f (fs : files),
  micro_particle_file base adaptive global c = Some f ->
  execution text (micro_particle 0 frequency base adaptive global) (start c (Some data)) ds s ->
  (ds <> [] -> at_end (end_clock c ds) = true ->
     perform fs (log s) f =
       Some (bubble_header :: map (line_of text) ((now c :: data) :: rows_of c ds))) /\
  (forall g, g <> f -> perform fs (log s) g = fs g) /\
  (forall l rest, log s = (l ++ rest)%list -> l = [] \/
     exists lines, perform fs l f = Some lines /\
       begins lines (bubble_header :: map (line_of text) ((now c :: data) :: rows_of c ds))).
Proof.
  intros fr base ad gl c data ds s f fs Hf X.
  assert (Hn : forall c' g, In c' (clocks c ds) -> pr_file (micro_particle 0 fr base ad gl) c' = Some g -> g = f).
  { intros c' g Hi. cbn [pr_file micro_particle]. unfold micro_particle_file in *.
    rewrite (max_step_clocks _ _ _ Hi). congruence. }
  split; [|split].
  - intros Hd E. refine (proj1 (C100_one_file (micro_particle 0 fr base ad gl) c (Some data) ds s f fs eq_refl eq_refl X Hn) Hd (or_intror E) _). discriminate.
  - exact (proj2 (C100_one_file (micro_particle 0 fr base ad gl) c (Some data) ds s f fs eq_refl eq_refl X Hn)).
  - intros l rest HL. exact (proj1 (C100_crash (micro_particle 0 fr base ad gl) c (Some data) ds s f fs l rest eq_refl eq_refl X Hn HL)).
Qed.

(** rising_bubble: the same if the printed step size is the same at the ends of all time steps. *)
Theorem C100_rising_bubble_partial : forall frequency base adaptive global c data ds s k (fs : files),
  execution text (rising_bubble 0 frequency base adaptive global) (start c (Some data)) ds s ->
  (forall c', In c' (clocks c ds) -> step_number (step_size c') = Some k) ->
  let f := base ++ "-" ++ int_to_string adaptive 1 ++ "-" ++ int_to_string global 3 ++ "-" ++ int_to_string k 4 ++ ".txt" in
  (ds <> [] -> at_end (end_clock c ds) = true ->
     perform fs (log s) f =
       Some (bubble_header :: map (line_of text) ((now c :: data) :: rows_of c ds))) /\
  (forall g, g <> f -> perform fs (log s) g = fs g).
Proof.
  intros fr base ad gl c data ds s k fs X Hk f.
  assert (Hn : forall c' g, In c' (clocks c ds) -> pr_file (rising_bubble 0 fr base ad gl) c' = Some g -> g = f).
  { intros c' g Hi. cbn [pr_file rising_bubble]. unfold rising_bubble_file. rewrite (Hk _ Hi). unfold f. congruence. }
  split.
  - intros Hd E. refine (proj1 (C100_one_file (rising_bubble 0 fr base ad gl) c (Some data) ds s f fs eq_refl eq_refl X Hn) Hd (or_intror E) _). discriminate.
  - exact (proj2 (C100_one_file (rising_bubble 0 fr base ad gl) c (Some data) ds s f fs eq_refl eq_refl X Hn)).
Qed.

(** spurious_currents: if the time changes in every time step, joining rows of the same time never
    happens, and the program behaves like one with plain buffering (so the theorems above apply to it). *)
Definition plain (p : program N) : program N :=
  MkProgram (pr_rank p) (pr_frequency p) (pr_header p) (pr_file p) push.
Fixpoint time_moves (c : clock N) ds : Prop :=
  match ds with [] => True
  | d :: ds => neqb (now (step_clock c d)) (now c) = false /\ time_moves (step_clock c d) ds end.
Definition last_is_now s : Prop :=
  buffer s = [] \/ exists before d, buffer s = (before ++ [now (clk s) :: d])%list.
Theorem C100_spurious_currents : forall rank frequency base eps sigma adaptive global c ds s,
  let p := spurious_currents rank frequency base eps sigma adaptive global in
  time_moves c ds ->
  execution text p (start c None) ds s <-> execution text (plain p) (start c None) ds s.
Proof.
  intros rank fr base eps sigma ad gl c ds s p.
  assert (G : forall s0, last_is_now s0 -> time_moves (clk s0) ds ->
     execution text p s0 ds s <-> execution text (plain p) s0 ds s).
  { induction ds as [|d ds IH]; intros s0 HL HT.
    - split; intros X; inversion X; constructor.
    - destruct HT as [HT1 HT2].
      assert (E : push_or_join (buffer s0) (now (step_clock (clk s0) d) :: snd d) = push (buffer s0) (now (step_clock (clk s0) d) :: snd d)).
      { unfold push_or_join. destruct HL as [->|(b & d0 & ->)]; [reflexivity|].
        rewrite rev_app_distr. cbn [rev app]. rewrite HT1. reflexivity. }
      assert (B : body text p d s0 = body text (plain p) d s0).
      { unfold body. change (run (clk s0) (fst d ++ [Next])) with (step_clock (clk s0) d). cbn [pr_add plain p spurious_currents].
        rewrite E. reflexivity. }
      assert (L : forall s1, body text p d s0 = Some s1 -> last_is_now s1 /\ clk s1 = step_clock (clk s0) d).
      { intros s1 H. split; [|exact (body_clk _ _ _ _ H)]. rewrite B in H. unfold body, output in H.
        cbn [pr_add plain clk buffer] in H. change (run (clk s0) (fst d ++ [Next])) with (step_clock (clk s0) d) in H.
        assert (HP : last_is_now (MkState (step_clock (clk s0) d) (push (buffer s0) (now (step_clock (clk s0) d) :: snd d)) (first_output s0) (log s0))).
        { right. exists (buffer s0), (snd d). reflexivity. }
        destruct (push _ _); [injection H as <-; exact HP|].
        destruct (Nat.eqb _ _); [|injection H as <-; exact HP].
        destruct (at_tick _ _) as [[]|]; try discriminate; [|injection H as <-; exact HP].
        destruct (pr_file _ _); [|discriminate]. injection H as <-. left. reflexivity. }
      split; intros X; inversion X as [|? ? s1 ? ? A1 A2 A3]; subst.
      + destruct (L _ A2) as [L1 L2]. rewrite B in A2. econstructor; [exact A1|exact A2|].
        apply IH; [exact L1|rewrite L2; exact HT2|exact A3].
      + rewrite <- B in A2. destruct (L _ A2) as [L1 L2]. econstructor; [exact A1|exact A2|].
        apply IH; [exact L1|rewrite L2; exact HT2|exact A3]. }
  intros HT. apply G; [left; reflexivity|exact HT].
Qed.
(** Joining loses and repeats nothing: the numbers of the new statistics (without the time) come after all
    earlier ones; the time stays at the front of its row, and a new row begins exactly if the time is a new
    one. *)
Theorem C100_join : forall (before : list (list N)) t0 d0 t d,
  let b := (before ++ [t0 :: d0])%list in
  flat_map (@tl N) (push_or_join b (t :: d)) = (flat_map (@tl N) b ++ d)%list /\
  map (fun r => hd t r) (push_or_join b (t :: d)) =
    (map (fun r => hd t r) b ++ if neqb t t0 then [] else [t])%list /\
  push_or_join [] (t :: d) = [t :: d].
Proof.
  intros before t0 d0 t d b. unfold push_or_join, push, b. rewrite rev_app_distr. cbn [rev app].
  rewrite rev_involutive. destruct (neqb t t0).
  - rewrite !flat_map_app, !map_app, app_nil_r. cbn. rewrite !app_nil_r, app_assoc. auto.
  - rewrite !flat_map_app, !map_app. cbn. rewrite !app_nil_r. auto.
Qed.
End Loop.
Print Assumptions C100_every_row_once.
Print Assumptions C100_one_file.
Print Assumptions C100_crash.
Print Assumptions C100_other_processes.
Print Assumptions C100_micro_particle.
Print Assumptions C100_rising_bubble_partial.
Print Assumptions C100_spurious_currents.
Print Assumptions C100_join.

(** ** The file names *)
(** Two runs of rising_bubble share a file only if they agree in the two refinement numbers and in the
    printed step size (equally for micro_particle). *)
Lemma suffix_cut (b : string) (x y : string) : b ++ x = b ++ y -> x = y.
Proof. induction b as [|a b IH]; cbn; [auto|]. intros [= H]. auto. Qed.
Lemma number_cut v w n m x y : int_to_string v n ++ String "-"%char x = int_to_string w m ++ String "-"%char y -> v = w /\ x = y.
Proof.
  intros H. apply (f_equal list_ascii_of_string) in H. rewrite !la_app in H. cbn [list_ascii_of_string] in H.
  assert (D : forall u k, ~ In "-"%char (list_ascii_of_string (int_to_string u k))).
  { intros u k Hi. apply int_to_string_digits in Hi. revert Hi. cbn. intuition discriminate. }
  apply cut_sep in H; [|apply D|apply D]. destruct H as [H1 H2]. apply la_inj in H1, H2.
  split; [eapply int_to_string_inj; exact H1|exact H2].
Qed.
Lemma number_cut_txt v w n m : int_to_string v n ++ ".txt" = int_to_string w m ++ ".txt" -> v = w.
Proof.
  intros H. apply (f_equal list_ascii_of_string) in H. rewrite !la_app in H. cbn [list_ascii_of_string] in H.
  assert (D : forall u k, ~ In "."%char (list_ascii_of_string (int_to_string u k))).
  { intros u k Hi. apply int_to_string_digits in Hi. revert Hi. cbn. intuition discriminate. }
  apply cut_sep in H; [|apply D|apply D]. destruct H as [H1 H2]. apply la_inj in H1.
  eapply int_to_string_inj; exact H1.
Qed.
Theorem C100_names : forall (N : Num) base (a1 g1 a2 g2 : BinNums.N) (c1 c2 : clock N) f,
  (rising_bubble_file base a1 g1 c1 = Some f -> rising_bubble_file base a2 g2 c2 = Some f ->
     a1 = a2 /\ g1 = g2 /\ step_number (step_size c1) = step_number (step_size c2)) /\
  (micro_particle_file base a1 g1 c1 = Some f -> micro_particle_file base a2 g2 c2 = Some f ->
     a1 = a2 /\ g1 = g2 /\ step_number (max_step_size c1) = step_number (max_step_size c2)) /\
  (forall e1 s1 e2 s2, spurious_currents_file base e1 s1 a1 g1 c1 = Some f -> spurious_currents_file base e2 s2 a2 g2 c2 = Some f ->
     e1 = e2 /\ s1 = s2 /\ a1 = a2 /\ g1 = g2 /\ step_number (step_size c1) = step_number (step_size c2)).
Proof.
  intros N base a1 g1 a2 g2 c1 c2 f. split; [|split; [|intros e1 s1 e2 s2; unfold spurious_currents_file;
     destruct (step_number _) as [k1|]; [|discriminate]; intros [= <-];
     destruct (step_number _) as [k2|]; [|discriminate]; intros [= H]; apply suffix_cut in H; cbn [append] in H;
     injection H as H; apply number_cut in H; destruct H as [-> H]; apply number_cut in H; destruct H as [-> H];
     apply number_cut in H; destruct H as [-> H]; apply number_cut in H; destruct H as [-> H];
     apply number_cut_txt in H; subst; auto]]; unfold rising_bubble_file, micro_particle_file;
    (destruct (step_number _) as [k1|]; [|discriminate]; intros [= <-];
     destruct (step_number _) as [k2|]; [|discriminate]; intros [= H]; apply suffix_cut in H; cbn [append] in H;
     injection H as H; apply number_cut in H; destruct H as [-> H]; apply number_cut in H; destruct H as [-> H];
     apply number_cut_txt in H; subst; auto).
Qed.
Print Assumptions C100_names.
(** the names of the files: interface width, tension, refinements and step number with the digits of the programs *)
Theorem C100_file_names :
  let c := ts_init (N:=NumQ.QNum) (MkTP (N:=NumQ.QNum) bdf_2 (QArith_base.Qmake 0 1) (QArith_base.Qmake 1 1) (QArith_base.Qmake 1 8) (QArith_base.Qmake 1 8) (QArith_base.Qmake 1 8)) in
  spurious_currents_file (N:=NumQ.QNum) "out" 2 100 1 3 c = Some "out-2-0100-1-003-1250.txt" /\
  rising_bubble_file (N:=NumQ.QNum) "out" 1 3 c = Some "out-1-003-1250.txt" /\
  micro_particle_file (N:=NumQ.QNum) "out" 1 3 c = Some "out-1-3-1250.txt".
Proof. vm_compute. repeat split. Qed.

(** ** The violations *)
(** rising_bubble (and spurious_currents) put the current step size into the file name.  A run with step
    size 0.3 and final time 1, output every 0.6 time units: the last step is cut to 0.1, and the last rows
    go to another file, at the end of what a previous run left there. *)
Definition rb_text (x : FNum) : string :=
  if neqb x (Fof_Z 0) then "0" else if neqb x (Fof_Z 1) then "1" else "x".
Definition rb_clock : clock FNum :=
  ts_init (MkTP (N:=FNum) bdf_2 (Fof_Z 0) (Fof_Z 1) (Fof_Q (3#10)) (Fof_Q (3#10)) (Fof_Q (1#100))).
Definition rb : program FNum := rising_bubble (N:=FNum) 0 (Fof_Q (6#10)) "rb" 1 4.
Definition rb_step : step_data FNum := ([], [Fof_Z 1]).
Definition rb_steps : list (step_data FNum) := [rb_step; rb_step; rb_step; rb_step].
Definition try_body (p : program FNum) (s : state FNum) : state FNum :=
  match body rb_text p rb_step s with Some s' => s' | None => s end.
Definition defined (p : program FNum) (s : state FNum) : bool :=
  match body rb_text p rb_step s with Some _ => true | None => false end.
Fixpoint after (p : program FNum) (n : nat) (s : state FNum) : state FNum :=
  match n with O => s | S n => after p n (try_body p s) end.
Lemma execute p n : forall s, (forall k, (k < n)%nat -> at_end (clk (after p k s)) = false /\ defined p (after p k s) = true) ->
  execution rb_text p s (repeat rb_step n) (after p n s).
Proof.
  induction n as [|n IH]; intros s H; [apply exec_done|]. cbn [repeat after].
  destruct (H O ltac:(lia)) as [E D]. cbn [after] in E, D.
  apply exec_step with (try_body p s); [exact E| |].
  - unfold try_body, defined in *. destruct (body _ _ _ _); [reflexivity|discriminate].
  - apply IH. intros k Hk. apply (H (S k)). lia.
Qed.
Definition rb_start : state FNum := start rb_clock (Some [Fof_Z 1]).
Definition rb_end : state FNum := after rb 4 rb_start.
Definition old_files : files := fun f => if String.eqb f "rb-1-004-1000.txt" then Some ["old"] else None.

Theorem C100_violation_split :
  execution rb_text rb rb_start rb_steps rb_end /\
  at_end (end_clock rb_clock rb_steps) = true /\
  perform old_files (log rb_end) "rb-1-004-3000.txt" =
    Some [bubble_header; " 0   1   "; " x   1   "; " x   1   "] /\
  perform old_files (log rb_end) "rb-1-004-1000.txt" =
    Some ["old"; " x   1   "; " 1   1   "].
Proof.
  split.
  { apply (execute rb 4). intros k Hk. do 4 (destruct k as [|k]; [split; vm_compute; reflexivity|]). lia. }
  split; [vm_compute; reflexivity|]. split; vm_compute; reflexivity.
Qed.
Print Assumptions C100_violation_split.

(** The step size is printed in units of 1e-4: all step sizes below (nearly) 1e-4 give the same name. *)
Theorem C100_violation_names : forall (t1 t2 : R) base adaptive global (c1 c2 : clock RNum),
  (0 <= t1 < 99/1000000)%R -> (0 <= t2 < 99/1000000)%R -> max_step_size c1 = t1 -> max_step_size c2 = t2 ->
  step_size c1 = t1 -> step_size c2 = t2 ->
  rising_bubble_file base adaptive global c1 = rising_bubble_file base adaptive global c2 /\
  micro_particle_file base adaptive global c1 = micro_particle_file base adaptive global c2.
Proof.
  assert (E : forall t : R, (0 <= t < 99/1000000)%R -> step_number (N:=RNum) t = Some 0%N).
  { intros t Ht. unfold step_number. cbn [nint nmul nlit RNum]. unfold Q2R; cbn [Qnum Qden].
    replace (Rtrunc (10000010 * / 1000 * t)) with 0%Z; [reflexivity|].
    unfold Rtrunc. unfold Rltb. destruct (Rlt_dec _ 0); [lra|]. set (x := (10000010 * / 1000 * t)%R) in *. assert (0 <= x < 1)%R by (unfold x; lra).
    destruct (base_Int_part x) as [I1 I2]. assert (IZR (Int_part x) < 1)%R as J1 by lra. assert (-1 < IZR (Int_part x))%R as J2 by lra.
    apply (lt_IZR _ 1) in J1. apply (lt_IZR (-1)) in J2. lia. }
  intros t1 t2 b a g c1 c2 H1 H2 M1 M2 S1 S2. unfold rising_bubble_file, micro_particle_file.
  rewrite M1, M2, S1, S2, !E by assumption. split; reflexivity.
Qed.
Print Assumptions C100_violation_names.

(** ** The hypotheses are met *)
(** micro_particle on the same clock: one complete file *)
Definition mp : program FNum := micro_particle (N:=FNum) 0 (Fof_Q (6#10)) "mp" 1 4.
Definition mp_end : state FNum := after mp 4 rb_start.
Example C100_nonvacuous :
  micro_particle_file (N:=FNum) "mp" 1 4 rb_clock = Some "mp-1-4-3000.txt" /\
  execution rb_text mp rb_start rb_steps mp_end /\
  at_end (end_clock rb_clock rb_steps) = true /\
  perform old_files (log mp_end) "mp-1-4-3000.txt" =
    Some [bubble_header; " 0   1   "; " x   1   "; " x   1   "; " x   1   "; " 1   1   "] /\
  time_moves rb_clock rb_steps.
Proof.
  split; [vm_compute; reflexivity|]. split.
  { apply (execute mp 4). intros k Hk. do 4 (destruct k as [|k]; [split; vm_compute; reflexivity|]). lia. }
  split; [vm_compute; reflexivity|]. split; [vm_compute; reflexivity|].
  unfold rb_steps. cbn [time_moves]. repeat (split; [vm_compute; reflexivity|]). exact I.
Qed.
