(** * C126: what the printed statistics of the flow solver count *)
From Coq Require Import String Reals List Bool Arith ZArith Lra Lia.
From Verif Require Import SumR Model_Statistics.
Import ListNotations.
Open Scope R_scope.

(** ** Specification: the calls and the durations of the steps, without clock and counters *)
Inductive quantity := NonlinearCalls | NonlinearTime | LinearCalls | LinearTime | ProductCalls | ProductTime | PrecCalls
| PartTime (part : nat).   (* 0 velocity, 1 divergence, 2 pressure mass, 3 pressure Poisson, 4 the whole preconditioner *)
Definition recorded (q : quantity) (s : stats) : R :=
  match q with
  | NonlinearCalls => INR (calls (st_nonlinear s)) | NonlinearTime => spent (st_nonlinear s)
  | LinearCalls => INR (calls (st_linear s)) | LinearTime => spent (st_linear s)
  | ProductCalls => INR (calls (st_matvec s)) | ProductTime => spent (st_matvec s)
  | PrecCalls => INR (st_prec_calls s) | PartTime i => st_phase s i
  end.
Section Spec.
Variable par : params.
(** the Poisson part is left out for fluids without mass in unsteady flow *)
Definition with_poisson : bool := is_stationary par || has_density par.
Definition apply_time (a : application) : R :=
  a_velocity a + a_gap1 a + a_divergence a + a_gap2 a + a_mass a + (if with_poisson then a_gap3 a + a_poisson a else 0).
Definition part_time (a : application) (i : nat) : R :=
  match i with O => a_velocity a | 1%nat => a_divergence a | 2%nat => a_mass a | 3%nat => if with_poisson then a_poisson a else 0
             | 4%nat => apply_time a | _ => 0 end.
Definition work_time (w : work) : R := match w with Other d => d | Multiply d => d | Apply a => apply_time a end.
Definition of_work (q : quantity) (w : work) : R :=
  match q, w with
  | ProductCalls, Multiply _ => 1 | ProductTime, Multiply d => d
  | PrecCalls, Apply _ => 1 | PartTime i, Apply a => part_time a i
  | _, _ => 0
  end.
(** a linear solve; the projection scheme uses neither operator *)
Definition system_time (ws : list work) : R :=
  if is_projection par then suml ws (fun w => match w with Other d => d | _ => 0 end) else suml ws work_time.
Definition of_system (q : quantity) (ws : list work) : R :=
  if is_projection par then 0 else suml ws (of_work q) + match q with LinearCalls => 1 | LinearTime => suml ws work_time | _ => 0 end.
Definition of_item (q : quantity) (i : item) : R :=
  match i with
  | Solve _ iterations rest => suml iterations (fun it => of_system q (snd it))
      + match q with NonlinearCalls => 1 | NonlinearTime => suml iterations (fun it => fst it + system_time (snd it)) + rest | _ => 0 end
  | Pause _ => 0
  | Direct w => of_work q w
  | DirectSolve ws => of_system q ws
  end.
(** statistics are printed after the nonlinear solves of the steps 1, 11, 21, ..., or of every step with the highest verbosity *)
Definition due (step_no : nat) : Prop := output_memory par = true /\ ((exists k, step_no = (10 * k + 1)%nat) \/ output_verbosity par = 3%nat).
Definition quiet (i : item) : Prop := match i with Solve n _ _ => ~ due n | _ => True end.
(** a stretch of the session that ends with the first print *)
Definition stretch (l : list item) : Prop := exists mid n iterations rest, l = mid ++ [Solve n iterations rest] /\ Forall quiet mid /\ due n.
End Spec.

Section Proofs.
Variable par : params.
Lemma prints_due n : prints par n = true <-> due par n.
Proof.
  unfold prints, due. rewrite andb_true_iff, orb_true_iff, !Nat.eqb_eq. split; intros [A [B|B]]; split; auto; left.
  - exists (n / 10)%nat. pose proof (Nat.div_mod n 10 ltac:(lia)). lia.
  - destruct B as [k ->]. rewrite Nat.add_comm, Nat.mul_comm, Nat.mod_add by lia. reflexivity.
Qed.
(** the effect of a step on the clock and on what is recorded *)
Definition adds (t : R) (f : quantity -> R) (p p' : process) : Prop := wall p' = wall p + t /\ forall q, recorded q (counted p') = recorded q (counted p) + f q.
Lemma adds_refl p : adds 0 (fun _ => 0) p p. Proof. split; intros; ring. Qed.
Lemma adds_trans t1 f1 t2 f2 a b c : adds t1 f1 a b -> adds t2 f2 b c -> adds (t1 + t2) (fun q => f1 q + f2 q) a c.
Proof. intros [A B] [C D]. split; [rewrite C, A; ring|]. intros q. rewrite D, B. ring. Qed.
Lemma adds_eq t f t' f' a b : adds t f a b -> t = t' -> (forall q, f q = f' q) -> adds t' f' a b.
Proof. intros [A B] <- E. split; [exact A|]. intros q. rewrite B, E. reflexivity. Qed.
Lemma pass_adds d p : adds d (fun _ => 0) p (pass d p).
Proof. split; [reflexivity|]. intros q. cbn. ring. Qed.
Lemma S_R n : INR (S n) = INR n + 1. Proof. apply S_INR. Qed.
Lemma multiply_adds d p : adds d (fun q => of_work par q (Multiply d)) p (matrix_vmult d p).
Proof. split; [reflexivity|]. intros []; cbn -[INR]; try rewrite S_R; ring. Qed.
Lemma apply_adds a p : adds (apply_time par a) (fun q => of_work par q (Apply a)) p (preconditioner_vmult par a p).
Proof.
  unfold preconditioner_vmult, apply_time, with_poisson. cbv zeta.
  destruct (is_stationary par) eqn:Es; [|destruct (has_density par) eqn:Ed]; (split; [cbn -[INR]; ring|]);
    intros q; destruct q as [| | | | | | |i]; cbn -[INR]; try rewrite S_R; try ring;
    destruct i as [|[|[|[|[|i]]]]]; cbn -[INR]; unfold part_time, apply_time, with_poisson; rewrite ?Es, ?Ed; cbn -[INR]; try ring.
Qed.
Lemma work_adds w p : adds (work_time par w) (fun q => of_work par q w) p (do_work par p w).
Proof.
  destruct w; cbn [do_work work_time]; [|apply multiply_adds|apply apply_adds].
  eapply adds_eq; [apply pass_adds|reflexivity|]. intros []; reflexivity.
Qed.
Lemma works_adds ws : forall p, adds (suml ws (work_time par)) (fun q => suml ws (of_work par q)) p (fold_left (do_work par) ws p).
Proof.
  induction ws as [|w ws IH]; intros p; cbn [fold_left suml]; [apply adds_refl|].
  eapply adds_trans; [apply work_adds|apply IH].
Qed.
Lemma system_adds ws p : adds (system_time par ws) (fun q => of_system par q ws) p (solve_system par ws p).
Proof.
  unfold system_time, of_system, solve_system. destruct (is_projection par).
  - revert p. induction ws as [|w ws IH]; intros p; cbn [fold_left suml]; [apply adds_refl|].
    assert (H : adds (match w with Other d => d | _ => 0 end) (fun _ => 0) p (match w with Other d => pass d p | _ => p end)) by (destruct w; [apply pass_adds|apply adds_refl|apply adds_refl]).
    eapply adds_eq; [exact (adds_trans _ _ _ _ _ _ _ H (IH _))|reflexivity|]. intros q. cbn beta. ring.
  - destruct (works_adds ws p) as [A B]. split; [exact A|]. intros q. specialize (B q).
    destruct q; cbn -[INR fold_left suml of_work work_time] in *; try rewrite S_R; rewrite ?B, ?A; ring.
Qed.
(** a nonlinear solve before it prints *)
Definition solved (iterations : list (R * list work)) (rest : R) (p : process) : process :=
  let p1 := pass rest (fold_left (fun p it => solve_system par (snd it) (pass (fst it) p)) iterations p) in
  with_stats (fun s => MkStats (record_call (wall p1 - wall p) (st_nonlinear s)) (st_linear s) (st_matvec s) (st_prec_calls s) (st_phase s)) p1.
Lemma solved_adds n iterations rest p :
  adds (suml iterations (fun it => fst it + system_time par (snd it)) + rest) (fun q => of_item par q (Solve n iterations rest)) p (solved iterations rest p).
Proof.
  assert (A : adds (suml iterations (fun it => fst it + system_time par (snd it))) (fun q => suml iterations (fun it => of_system par q (snd it))) p
                (fold_left (fun p it => solve_system par (snd it) (pass (fst it) p)) iterations p)).
  { revert p. induction iterations as [|it l IH]; intros p; cbn [fold_left suml]; [apply adds_refl|].
    eapply adds_eq; [exact (adds_trans _ _ _ _ _ _ _ (adds_trans _ _ _ _ _ _ _ (pass_adds (fst it) p) (system_adds (snd it) _)) (IH _))|reflexivity|]. intros q. cbn beta. ring. }
  pose proof (adds_trans _ _ _ _ _ _ _ A (pass_adds rest _)) as [B C]. clear A. split; [exact B|]. intros q. specialize (C q). unfold of_item.
  unfold solved. cbv zeta. set (p1 := pass rest _) in *. clearbody p1.
  destruct q; cbn -[INR of_system system_time suml] in *; try rewrite S_R; rewrite ?C, ?B; ring.
Qed.
Lemma solve_form n iterations rest p : do_item par (Solve n iterations rest) p =
  if prints par n then (with_stats (fun _ => no_stats) (solved iterations rest p), [counted (solved iterations rest p)]) else (solved iterations rest p, []).
Proof. reflexivity. Qed.
Lemma quiet_item i p : quiet par i -> exists t p', do_item par i p = (p', []) /\ adds t (fun q => of_item par q i) p p'.
Proof.
  destruct i; intros Q.
  - rewrite solve_form. destruct (prints par step_no) eqn:E; [exfalso; apply Q; apply prints_due, E|]. do 2 eexists. split; [reflexivity|apply solved_adds].
  - do 2 eexists. split; [reflexivity|]. eapply adds_eq; [apply pass_adds|reflexivity|reflexivity].
  - do 2 eexists. split; [reflexivity|]. apply work_adds.
  - do 2 eexists. split; [reflexivity|]. apply system_adds.
Qed.
Lemma nothing_recorded q : recorded q no_stats = 0. Proof. destruct q; reflexivity. Qed.
(** the session after the items [seen] since the last print *)
Lemma session_segments l : forall p seen, Forall (quiet par) seen -> (forall q, recorded q (counted p) = suml seen (of_item par q)) ->
  exists stretches rest, seen ++ l = concat stretches ++ rest /\ Forall (quiet par) rest /\
    Forall2 (fun s r => stretch par s /\ forall q, recorded q r = suml s (of_item par q)) stretches (snd (session par l p)) /\
    forall q, recorded q (counted (fst (session par l p))) = suml rest (of_item par q).
Proof.
  induction l as [|i l IH]; intros p seen Hs Hq.
  - exists [], seen. rewrite app_nil_r. cbn. repeat split; auto.
  - cbn [session]. assert (D : quiet par i \/ exists n its r, i = Solve n its r /\ due par n).
    { destruct i; try (left; exact Logic.I). destruct (prints par step_no) eqn:E.
      - right. do 3 eexists. split; [reflexivity|apply prints_due, E].
      - left. intros H. apply prints_due in H. congruence. }
    destruct D as [Q|(n & its & r & -> & Dn)].
    + destruct (quiet_item i p Q) as (t & p' & E & _ & A). rewrite E. destruct (session par l p') as [p2 r2] eqn:E2.
      destruct (IH p' (seen ++ [i])) as (ss & rest & C1 & C2 & C3 & C4).
      * apply Forall_app. split; [exact Hs|]. constructor; [exact Q|constructor].
      * intros q. rewrite A, Hq, suml_app. cbn [suml]. ring.
      * rewrite E2 in C3, C4. exists ss, rest. cbn [fst snd app] in *. rewrite <- app_assoc in C1. repeat split; assumption.
    + rewrite solve_form. assert (E : prints par n = true) by (apply prints_due, Dn). rewrite E.
      destruct (solved_adds n its r p) as [_ A]. set (ps := solved its r p) in *. destruct (session par l (with_stats (fun _ => no_stats) ps)) as [p2 r2] eqn:E2.
      destruct (IH (with_stats (fun _ => no_stats) ps) []) as (ss & rest & C1 & C2 & C3 & C4); [constructor|intros q; apply nothing_recorded|].
      rewrite E2 in C3, C4. exists ((seen ++ [Solve n its r]) :: ss), rest. cbn [fst snd concat] in *. split; [|split; [exact C2|split; [|exact C4]]].
      * cbn [app] in C1. rewrite C1, <- !app_assoc. reflexivity.
      * cbn [app]. constructor; [|exact C3]. split; [exists seen, n, its, r; auto|]. intros q. rewrite A, Hq, suml_app. cbn [suml]. ring.
Qed.
End Proofs.

(** ** Theorems *)
(** A session of any solves and other calls, starting with a new solver: it falls into stretches that end with a print, and the remaining calls;
    each printed report contains exactly the calls and the time of its stretch, and what is not printed is still recorded *)
Theorem C126_reports : forall par l p, counted p = no_stats ->
  exists stretches rest, l = concat stretches ++ rest /\ Forall (quiet par) rest /\
    Forall2 (fun s r => stretch par s /\ forall q, recorded q r = suml s (of_item par q)) stretches (snd (session par l p)) /\
    forall q, recorded q (counted (fst (session par l p))) = suml rest (of_item par q).
Proof.
  intros par l p E. apply (session_segments par l p [] (Forall_nil _)). intros q. rewrite E. apply nothing_recorded.
Qed.
(** nothing is lost and nothing is counted twice *)
Theorem C126_conservation : forall par l p q, counted p = no_stats ->
  suml (snd (session par l p)) (recorded q) + recorded q (counted (fst (session par l p))) = suml l (of_item par q).
Proof.
  intros par l p q E. destruct (C126_reports par l p E) as (ss & rest & -> & _ & F & G). rewrite G, suml_app. f_equal. clear G E.
  remember (snd (session par (concat ss ++ rest) p)) as rs eqn:Er. clear Er. induction F as [|s r ss rs [_ H] F IH]; [reflexivity|].
  cbn [suml concat]. rewrite suml_app, H, IH. reflexivity.
Qed.

(** durations are not negative *)
Definition sane_work (w : work) : Prop :=
  match w with Other d => 0 <= d | Multiply d => 0 <= d
  | Apply a => 0 <= a_velocity a /\ 0 <= a_divergence a /\ 0 <= a_mass a /\ 0 <= a_poisson a /\ 0 <= a_gap1 a /\ 0 <= a_gap2 a /\ 0 <= a_gap3 a end.
Definition sane (i : item) : Prop :=
  match i with
  | Solve _ iterations rest => 0 <= rest /\ Forall (fun it => 0 <= fst it /\ Forall sane_work (snd it)) iterations
  | Pause d => 0 <= d | Direct w => sane_work w | DirectSolve ws => Forall sane_work ws end.
(** only the solver itself uses solve_system and the operators *)
Definition through_solver (i : item) : Prop := match i with Solve _ _ _ | Pause _ => True | _ => False end.

Section Nested.
Variable par : params.
Notation parts_le f := (f (PartTime 0) + f (PartTime 1) + f (PartTime 2) + f (PartTime 3) <= f (PartTime 4)).
Notation ops_le f := (f (PartTime 4) + f ProductTime <= f LinearTime).
Notation lin_le f := (f LinearTime <= f NonlinearTime).
Lemma work_nested w : sane_work w -> 0 <= work_time par w /\ parts_le (fun q => of_work par q w) /\ of_work par (PartTime 4) w + of_work par ProductTime w <= work_time par w.
Proof.
  destruct w; cbn; intros H; [lra|lra|]. unfold part_time, apply_time. destruct (with_poisson par); lra.
Qed.
Lemma works_nested ws : Forall sane_work ws -> 0 <= suml ws (work_time par) /\ parts_le (fun q => suml ws (of_work par q)) /\
  suml ws (of_work par (PartTime 4)) + suml ws (of_work par ProductTime) <= suml ws (work_time par).
Proof.
  induction 1 as [|w ws H _ IH]; cbn [suml]; [lra|]. pose proof (work_nested w H). lra.
Qed.
Lemma others_nonneg ws : Forall sane_work ws -> 0 <= suml ws (fun w => match w with Other d => d | _ => 0 end).
Proof. induction 1 as [|w ws H _ IH]; cbn [suml]; [lra|]. destruct w; cbn in H; lra. Qed.
Lemma system_nested ws : Forall sane_work ws -> 0 <= system_time par ws /\ parts_le (fun q => of_system par q ws) /\ ops_le (fun q => of_system par q ws) /\ of_system par LinearTime ws <= system_time par ws.
Proof.
  intros H. pose proof (works_nested ws H) as W. pose proof (others_nonneg ws H) as O. unfold system_time, of_system. destruct (is_projection par); [lra|].
  assert (Z : suml ws (of_work par LinearTime) = 0) by (apply suml_zero; intros; destruct x; reflexivity). rewrite Z. lra.
Qed.
Lemma item_parts i : sane i -> parts_le (fun q => of_item par q i).
Proof.
  destruct i as [n its r|d|w|ws]; cbn [of_item sane]; intros H; [|lra|apply work_nested, H|apply (system_nested ws H)].
  destruct H as [_ H]. induction H as [|it its [_ H] _ IH]; cbn [suml]; [lra|]. pose proof (system_nested _ H). lra.
Qed.
Lemma item_nested i : sane i -> through_solver i -> ops_le (fun q => of_item par q i) /\ lin_le (fun q => of_item par q i).
Proof.
  destruct i as [n its r|d|w|ws]; cbn [of_item sane through_solver]; intros H T; try contradiction; [|lra].
  destruct H as [Hr H]. 
  assert (Z : suml its (fun it => of_system par NonlinearTime (snd it)) = 0).
  { apply suml_zero. intros it _. unfold of_system. destruct (is_projection par); [reflexivity|]. rewrite suml_zero; [ring|]. intros w _. destruct w; reflexivity. }
  rewrite Z. clear Z. rewrite !Rplus_0_l, !Rplus_0_r.
  assert (K : suml its (fun it => of_system par (PartTime 4) (snd it)) + suml its (fun it => of_system par ProductTime (snd it)) <= suml its (fun it => of_system par LinearTime (snd it)) /\
              suml its (fun it => of_system par LinearTime (snd it)) <= suml its (fun it => fst it + system_time par (snd it))).
  { induction H as [|it its [Hi H] _ IH]; cbn [suml]; [lra|]. pose proof (system_nested _ H). lra. }
  lra.
Qed.
Lemma suml_ops (f : quantity -> item -> R) l : (forall i, In i l -> parts_le (fun q => f q i)) -> parts_le (fun q => suml l (f q)).
Proof. induction l as [|i l IH]; intros H; cbn [suml]; [lra|]. pose proof (H i (or_introl eq_refl)). specialize (IH (fun j Hj => H j (or_intror Hj))). cbn beta in *. lra. Qed.
Lemma suml_nested (f : quantity -> item -> R) l : (forall i, In i l -> ops_le (fun q => f q i) /\ lin_le (fun q => f q i)) -> ops_le (fun q => suml l (f q)) /\ lin_le (fun q => suml l (f q)).
Proof. induction l as [|i l IH]; intros H; cbn [suml]; [lra|]. pose proof (H i (or_introl eq_refl)). specialize (IH (fun j Hj => H j (or_intror Hj))). cbn beta in *. lra. Qed.
End Nested.
Lemma in_stretch {A} (F : A -> stats -> Prop) ss rs : Forall2 F ss rs -> forall r, In r rs -> exists s, In s ss /\ F s r.
Proof. induction 1 as [|s r ss rs H _ IH]; intros r' []; [subst; exists s; split; [left; reflexivity|exact H]|]. destruct (IH _ H0) as (s' & ? & ?). exists s'. split; [right; assumption|assumption]. Qed.
(** in every report the times are nested: the parts of the preconditioner in the preconditioner, it and the products in the linear solver, the
    linear solver in the nonlinear solver *)
Theorem C126_nested : forall par l p, counted p = no_stats -> Forall sane l -> forall r, In r (snd (session par l p)) ->
  recorded (PartTime 0) r + recorded (PartTime 1) r + recorded (PartTime 2) r + recorded (PartTime 3) r <= recorded (PartTime 4) r /\
  (Forall through_solver l ->
     recorded (PartTime 4) r + recorded ProductTime r <= recorded LinearTime r /\ recorded LinearTime r <= recorded NonlinearTime r).
Proof.
  intros par l p E Hs r Hr. destruct (C126_reports par l p E) as (ss & rest & El & _ & F & _).
  destruct (in_stretch _ _ _ F r Hr) as (s & Is & _ & R). rewrite !R. clear R F Hr.
  assert (Sub : forall i, In i s -> In i l). { intros i Hi. rewrite El. apply in_or_app. left. apply in_concat. exists s. auto. }
  rewrite Forall_forall in Hs. split.
  - apply (suml_ops (of_item par)). intros i Hi. apply item_parts, Hs, Sub, Hi.
  - intros T. rewrite Forall_forall in T. apply (suml_nested (of_item par)). intros i Hi. apply item_nested; [apply Hs|apply T]; apply Sub, Hi.
Qed.

(** ** Several processes: the same calls, different durations *)
Definition same_work (a b : work) : Prop := match a, b with Other _, Other _ | Multiply _, Multiply _ | Apply _, Apply _ => True | _, _ => False end.
Definition same_item (a b : item) : Prop :=
  match a, b with
  | Solve n its _, Solve n' its' _ => n = n' /\ Forall2 (fun x y => Forall2 same_work (snd x) (snd y)) its its'
  | Pause _, Pause _ => True | Direct w, Direct w' => same_work w w' | DirectSolve ws, DirectSolve ws' => Forall2 same_work ws ws'
  | _, _ => False end.
Definition same_counts (a b : stats) : Prop :=
  calls (st_nonlinear a) = calls (st_nonlinear b) /\ calls (st_linear a) = calls (st_linear b) /\ calls (st_matvec a) = calls (st_matvec b) /\ st_prec_calls a = st_prec_calls b.
Section Processes.
Variable par : params.
Notation agree p p' := (same_counts (counted p) (counted p')).
Lemma work_same w w' p p' : same_work w w' -> agree p p' -> agree (do_work par p w) (do_work par p' w').
Proof.
  destruct w, w'; cbn; intros [] (A & B & C & D); unfold same_counts; [repeat split; assumption| |].
  - cbn. rewrite C. auto.
  - unfold preconditioner_vmult. cbv zeta. destruct (is_stationary par); [|destruct (has_density par)]; cbn; rewrite D; auto.
Qed.
Lemma works_same ws ws' : Forall2 same_work ws ws' -> forall p p', agree p p' -> agree (fold_left (do_work par) ws p) (fold_left (do_work par) ws' p').
Proof. induction 1 as [|w w' ws ws' H _ IH]; intros p p' A; cbn; [exact A|]. apply IH, work_same; assumption. Qed.
Lemma projected_counted ws : forall p, counted (fold_left (fun p w => match w with Other d => pass d p | _ => p end) ws p) = counted p.
Proof. induction ws as [|w ws IH]; intros p; cbn; [reflexivity|]. rewrite IH. destruct w; reflexivity. Qed.
Lemma system_same ws ws' p p' : Forall2 same_work ws ws' -> agree p p' -> agree (solve_system par ws p) (solve_system par ws' p').
Proof.
  intros H A. unfold solve_system. destruct (is_projection par); [rewrite !projected_counted; exact A|].
  destruct (works_same ws ws' H p p' A) as (B1 & B2 & B3 & B4). cbv zeta. unfold same_counts. cbn. rewrite B2. auto.
Qed.
Lemma solved_same its its' r r' : Forall2 (fun x y => Forall2 same_work (snd x) (snd y)) its its' -> forall p p', agree p p' -> agree (solved par its r p) (solved par its' r' p').
Proof.
  intros H p p' A. unfold solved. cbv zeta.
  assert (B : agree (fold_left (fun p it => solve_system par (snd it) (pass (fst it) p)) its p) (fold_left (fun p it => solve_system par (snd it) (pass (fst it) p)) its' p')).
  { revert p p' A. induction H as [|x y its its' H _ IH]; intros p p' A; cbn; [exact A|]. apply IH, system_same; [exact H|exact A]. }
  destruct B as (B1 & B2 & B3 & B4). unfold same_counts. cbn. rewrite B1. auto.
Qed.
Lemma item_same i i' p p' : same_item i i' -> agree p p' -> agree (fst (do_item par i p)) (fst (do_item par i' p')) /\ Forall2 same_counts (snd (do_item par i p)) (snd (do_item par i' p')).
Proof.
  destruct i, i'; cbn [same_item]; intros H A; try contradiction.
  - destruct H as [<- H]. rewrite !solve_form. pose proof (solved_same _ _ rest rest0 H p p' A) as B. destruct (prints par step_no); cbn [fst snd].
    + split; [repeat split|]. constructor; [exact B|constructor].
    + split; [exact B|constructor].
  - split; [exact A|constructor].
  - split; [apply work_same; assumption|constructor].
  - split; [apply system_same; assumption|constructor].
Qed.
End Processes.
(** processes that make the same calls print their reports together, with the same counts *)
Theorem C126_processes : forall par l l', Forall2 same_item l l' -> forall p p', same_counts (counted p) (counted p') ->
  Forall2 same_counts (snd (session par l p)) (snd (session par l' p')).
Proof.
  intros par. induction 1 as [|i i' l l' H _ IH]; intros p p' A; cbn [session]; [constructor|].
  destruct (item_same par i i' p p' H A) as [B C]. destruct (do_item par i p) as [q r]. destruct (do_item par i' p') as [q' r']. cbn [fst snd] in B, C.
  specialize (IH q q' B). destruct (session par l q), (session par l' q'). apply Forall2_app; assumption.
Qed.
Lemma sum_fold (l : list R) : fold_right Rplus 0 l = suml l (fun x => x).
Proof. induction l as [|x l IH]; cbn; [reflexivity|]. rewrite IH. reflexivity. Qed.
Lemma mean_bounds (l : list R) lo hi : l <> [] -> (forall x, In x l -> lo <= x <= hi) -> lo <= mean l <= hi.
Proof.
  intros N H. unfold mean. assert (P : 0 < INR (length l)) by (apply lt_0_INR; destruct l; [congruence|cbn; lia]).
  assert (B : lo * INR (length l) <= fold_right Rplus 0 l <= hi * INR (length l)).
  { clear N P. induction l as [|x l IH]; [cbn; lra|]. change (length (x :: l)) with (S (length l)). rewrite S_INR. cbn [fold_right].
    pose proof (H x (or_introl eq_refl)). specialize (IH (fun y Hy => H y (or_intror Hy))). lra. }
  split; [apply Rmult_le_reg_r with (INR (length l)); [exact P|]|apply Rmult_le_reg_r with (INR (length l)); [exact P|]];
    unfold Rdiv; rewrite Rmult_assoc, Rinv_l by lra; lra.
Qed.
Lemma fold_min (l : list R) a : forall x, In x l -> fold_right Rmin a l <= x.
Proof. induction l as [|y l IH]; intros x []; cbn; [subst; apply Rmin_l|]. eapply Rle_trans; [apply Rmin_r|apply IH; assumption]. Qed.
Lemma fold_max (l : list R) a : forall x, In x l -> x <= fold_right Rmax a l.
Proof. induction l as [|y l IH]; intros x []; cbn; [subst; apply Rmax_l|]. eapply Rle_trans; [apply IH; assumption|apply Rmax_r]. Qed.
Lemma fold_min_in (l : list R) a : fold_right Rmin a l = a \/ In (fold_right Rmin a l) l.
Proof.
  induction l as [|y l IH]; cbn; [left; reflexivity|]. destruct (Rle_dec y (fold_right Rmin a l)) as [L|L].
  - rewrite Rmin_left by exact L. auto.
  - rewrite Rmin_right by lra. tauto.
Qed.
Lemma fold_max_in (l : list R) a : fold_right Rmax a l = a \/ In (fold_right Rmax a l) l.
Proof.
  induction l as [|y l IH]; cbn; [left; reflexivity|]. destruct (Rle_dec y (fold_right Rmax a l)) as [L|L].
  - rewrite Rmax_right by exact L. tauto.
  - rewrite Rmax_left by lra. auto.
Qed.
(** a row of the table: minimum, mean and maximum are those of the processes, and the time per call is the mean over all calls on all processes;
    it is undefined exactly if there was no call *)
Theorem C126_row : forall (times : list R) (counts : list nat) n, times <> [] -> length counts = length times -> (forall c, In c counts -> c = n) ->
  let w := print_line n times in
  (In (ln_min w) times /\ In (ln_max w) times /\ forall t, In t times -> ln_min w <= t <= ln_max w) /\
  ln_avg w * INR (length times) = suml times (fun t => t) /\ ln_min w <= ln_avg w <= ln_max w /\
  (n = O <-> ln_per_call w = None) /\
  (forall v, ln_per_call w = Some v -> v * suml counts INR = suml times (fun t => t)).
Proof.
  intros times counts n N L H w.
  assert (P : 0 < INR (length times)) by (apply lt_0_INR; destruct times; [congruence|cbn; lia]).
  assert (Hd : In (hd 0 times) times) by (destruct times; [congruence|left; reflexivity]).
  assert (M : mean times * INR (length times) = suml times (fun t => t)) by (unfold mean; rewrite sum_fold; field; lra).
  assert (Bd : forall t, In t times -> ln_min w <= t <= ln_max w) by (intros t Ht; split; [apply fold_min|apply fold_max]; exact Ht).
  split; [split; [|split; [|exact Bd]]|split; [exact M|split; [apply mean_bounds; assumption|split]]].
  - unfold w, print_line, ln_min. destruct (fold_min_in times (hd 0 times)) as [-> | ?]; assumption.
  - unfold w, print_line, ln_max. destruct (fold_max_in times (hd 0 times)) as [-> | ?]; assumption.
  - unfold w, print_line, ln_per_call. destruct (Nat.eqb_spec n 0); split; congruence || (intros; congruence).
  - intros v. unfold w, print_line, ln_per_call. destruct (Nat.eqb_spec n 0) as [|Z]; [discriminate|]. intros [= <-].
    assert (C : suml counts INR = INR n * INR (length times)).
    { rewrite <- L. clear - H. induction counts as [|c l IH]; [cbn; ring|]. change (length (c :: l)) with (S (length l)). rewrite S_INR. cbn [suml].
      rewrite (H c (or_introl eq_refl)), IH by (intros; apply H; right; assumption). ring. }
    rewrite C, <- M. field. apply not_0_INR, Z.
Qed.

(** the rows with their names: what they count and what they time *)
Definition meaning (name : string) : option (quantity * quantity) :=
  (if String.eqb name "nln solver" then Some (NonlinearCalls, NonlinearTime) else
   if String.eqb name "lin solver" then Some (LinearCalls, LinearTime) else
   if String.eqb name "mat-vec" then Some (ProductCalls, ProductTime) else
   if String.eqb name "full prec" then Some (PrecCalls, PartTime 4) else
   if String.eqb name "velocity" then Some (PrecCalls, PartTime 0) else
   if String.eqb name "div matrix" then Some (PrecCalls, PartTime 1) else
   if String.eqb name "pres mass" then Some (PrecCalls, PartTime 2) else
   if String.eqb name "pres Poiss" then Some (PrecCalls, PartTime 3) else None)%string.
Theorem C126_table : forall own others, let rs := own :: others in
  map fst (table rs) = ["nln solver"; "lin solver"; "mat-vec"; "full prec"; "velocity"; "div matrix"; "pres mass"; "pres Poiss"]%string /\
  forall name w, In (name, w) (table rs) -> exists number time count, meaning name = Some (number, time) /\
    INR count = recorded number own /\ w = print_line count (map (recorded time) rs).
Proof.
  intros own others rs. split; [reflexivity|]. unfold table. cbv zeta. cbn [map seq app In fst rs hd]. intros name w H.
  repeat match type of H with _ \/ _ => destruct H as [H|H] | False => destruct H end;
    injection H as <- <-; do 3 eexists; (split; [reflexivity|]); (split; [|reflexivity]); reflexivity.
Qed.
Print Assumptions C126_table.

(** ** Where it fails *)
(** the projection scheme never counts a linear solve, a product or an application: the time per call is undefined in seven of the eight rows *)
Theorem C126_violation_projection : forall par l p r, is_projection par = true -> counted p = no_stats -> Forall through_solver l -> In r (snd (session par l p)) ->
  recorded LinearTime r = 0 /\ recorded ProductTime r = 0 /\ (forall i, recorded (PartTime i) r = 0) /\
  forall others, map (fun row => ln_per_call (snd row)) (tl (table (r :: others))) = repeat None 7.
Proof.
  intros par l p r Hp E T Hr. destruct (C126_reports par l p E) as (ss & rest & El & _ & F & _).
  destruct (in_stretch _ _ _ F r Hr) as (s & Is & _ & R).
  assert (Z : forall q, q <> NonlinearCalls -> q <> NonlinearTime -> recorded q r = 0).
  { intros q N1 N2. rewrite R. apply suml_zero. intros i Hi. assert (Ti : through_solver i).
    { rewrite Forall_forall in T. apply T. rewrite El. apply in_or_app. left. apply in_concat. exists s. auto. }
    destruct i as [n its rr|d|w|ws]; try contradiction; [|reflexivity]. cbn [of_item].
    rewrite suml_zero by (intros; unfold of_system; rewrite Hp; reflexivity). destruct q; try congruence; ring. }
  split; [apply Z; discriminate|]. split; [apply Z; discriminate|]. split; [intros i; apply Z; discriminate|]. intros others.
  assert (Z1 : calls (st_linear r) = O) by (apply INR_eq; apply (Z LinearCalls); discriminate).
  assert (Z2 : calls (st_matvec r) = O) by (apply INR_eq; apply (Z ProductCalls); discriminate).
  assert (Z3 : st_prec_calls r = O) by (apply INR_eq; apply (Z PrecCalls); discriminate).
  unfold table. cbv zeta. cbn [hd]. rewrite Z1, Z2, Z3. reflexivity.
Qed.
Lemma suml_nonneg_all (A : Type) (f : A -> R) (L : list A) : (forall y, 0 <= f y) -> 0 <= suml L f.
Proof. intros H. induction L as [|y L IH]; cbn [suml]; [lra|]. pose proof (H y). lra. Qed.
Lemma suml_pick (A : Type) (f : A -> R) (L : list A) x : (forall y, 0 <= f y) -> In x L -> f x <= suml L f.
Proof.
  intros Hf. induction L as [|y L IH]; intros []; cbn [suml].
  - subst. pose proof (suml_nonneg_all A f L Hf). lra.
  - pose proof (Hf y). specialize (IH H). lra.
Qed.
(** with a coupled scheme there is a number whenever a linear solve with a product and an application took place *)
Theorem C126_defined : forall par l p, is_projection par = false -> counted p = no_stats -> 
  (forall n its r, In (Solve n its r) l -> exists it d a, In it its /\ In (Multiply d) (snd it) /\ In (Apply a) (snd it)) ->
  forall r others, In r (snd (session par l p)) -> Forall (fun row => ln_per_call (snd row) <> None) (table (r :: others)).
Proof.
  intros par l p Hp E H r others Hr. destruct (C126_reports par l p E) as (ss & rest & El & _ & F & _).
  destruct (in_stretch _ _ _ F r Hr) as (s & Is & (mid & n & its & rr & Es & _ & _) & R).
  destruct (H n its rr) as (it & d & a & I1 & I2 & I3).
  { rewrite El. apply in_or_app. left. apply in_concat. exists s. split; [exact Is|]. rewrite Es. apply in_or_app. right. left. reflexivity. }
  pose proof (@suml_nonneg_all) as SN.
  assert (NN : forall q w, q = LinearCalls \/ q = ProductCalls \/ q = PrecCalls -> 0 <= of_work par q w) by (intros q w [-> |[-> | ->]]; destruct w; cbn; lra).
  assert (NS : forall q ws, q = LinearCalls \/ q = ProductCalls \/ q = PrecCalls -> 0 <= of_system par q ws).
  { intros q ws Hq. unfold of_system. rewrite Hp. pose proof (SN _ (of_work par q) ws (fun w => NN q w Hq)). destruct Hq as [-> |[-> | ->]]; lra. }
  assert (NI : forall q i, q = LinearCalls \/ q = ProductCalls \/ q = PrecCalls -> 0 <= of_item par q i).
  { intros q [m its' r'|d'|w|ws] Hq; cbn [of_item]; [|lra|apply NN, Hq|apply NS, Hq].
    pose proof (SN _ (fun it => of_system par q (snd it)) its' (fun it => NS q (snd it) Hq)). destruct Hq as [-> |[-> | ->]]; lra. }
  pose proof suml_pick as pick.
  assert (K : forall q, q = LinearCalls \/ q = ProductCalls \/ q = PrecCalls -> 1 <= of_system par q (snd it) -> 1 <= recorded q r).
  { intros q Hq H1. rewrite R, Es. eapply Rle_trans; [|apply (pick item (of_item par q) (mid ++ [Solve n its rr]) (Solve n its rr)); [intros; apply NI, Hq|apply in_or_app; right; left; reflexivity]].
    cbn [of_item]. pose proof (pick _ (fun it => of_system par q (snd it)) its it (fun y => NS q (snd y) Hq) I1) as P. cbn beta in P.
    destruct Hq as [-> |[-> | ->]]; lra. }
  assert (L1 : 1 <= recorded LinearCalls r).
  { apply K; [auto|]. unfold of_system. rewrite Hp. assert (0 <= suml (snd it) (of_work par LinearCalls)); [|lra]. rewrite suml_zero; [lra|]. intros w _. destruct w; reflexivity. }
  assert (L2 : 1 <= recorded ProductCalls r).
  { apply K; [auto|]. unfold of_system. rewrite Hp. pose proof (pick _ (of_work par ProductCalls) (snd it) _ (fun w => NN ProductCalls w (or_intror (or_introl eq_refl))) I2) as P. cbn in P. lra. }
  assert (L3 : 1 <= recorded PrecCalls r).
  { apply K; [auto|]. unfold of_system. rewrite Hp. pose proof (pick _ (of_work par PrecCalls) (snd it) _ (fun w => NN PrecCalls w (or_intror (or_intror eq_refl))) I3) as P. cbn in P. lra. }
  assert (L0 : 1 <= recorded NonlinearCalls r).
  { rewrite R, Es, suml_app. cbn [suml of_item]. assert (Z : forall L, 0 <= suml L (of_item par NonlinearCalls)).
    { assert (Zs : forall ws, of_system par NonlinearCalls ws = 0) by (intros ws; unfold of_system; rewrite Hp, suml_zero; [ring|]; intros w _; destruct w; reflexivity).
      induction L as [|i L IH]; cbn [suml]; [lra|]. destruct i as [m its' r'|d'|w|ws]; cbn [of_item]; [rewrite suml_zero by (intros; apply Zs); lra|lra|destruct w; cbn; lra|rewrite Zs; lra]. }
    pose proof (Z mid) as Zm. assert (Zi : suml its (fun it => of_system par NonlinearCalls (snd it)) = 0); [|lra].
    apply suml_zero. intros x _. unfold of_system. rewrite Hp, suml_zero; [ring|]. intros w _; destruct w; reflexivity. }
  cbn [recorded] in L0, L1, L2, L3.
  assert (NZ : forall c, 1 <= INR c -> Nat.eqb c 0 = false) by (intros c Hc; apply Nat.eqb_neq; intros ->; cbn in Hc; lra).
  unfold table. cbv zeta. cbn [hd]. unfold print_line. rewrite !(NZ _ L1), (NZ _ L0), (NZ _ L2). cbn [map seq app].
  rewrite !(NZ _ L3). repeat constructor; discriminate.
Qed.
(** the public function solve_system used by a program: its time is printed as linear solver time of the next time step, which took less *)
Theorem C126_violation_direct : exists par l p r, counted p = no_stats /\ Forall sane l /\ is_projection par = false /\ snd (session par l p) = [r] /\
  recorded NonlinearTime r < recorded LinearTime r.
Proof.
  set (par := MkParams false false true true 0). set (l := [DirectSolve [Multiply 5]; Solve 1 [(1, [Multiply 1])] 0]).
  set (p := MkProcess 0 no_stats). destruct (snd (session par l p)) as [|r [|r2 rs]] eqn:E; [discriminate E| |discriminate E].
  exists par, l, p, r. split; [reflexivity|]. split; [repeat (apply Forall_nil || apply Forall_cons || (cbn; apply conj) || (cbn; lra))|]. split; [reflexivity|]. split; [exact E|].
  cbn in E. injection E as <-. cbn. lra.
Qed.

(** ** Example: two steps with one linear solve each; the first step prints, the second does not *)
Example C126_nonvacuous : let par := MkParams false false true true 1 in let a := MkApply 4 1 2 3 0 0 0 in
  let l := [Solve 1 [(1, [Multiply 2; Apply a; Other 1])] 1; Pause 7; Solve 2 [(1, [Apply a; Multiply 2; Multiply 3])] 0] in
  Forall sane l /\ Forall through_solver l /\ due par 1 /\ ~ due par 2 /\
  exists r p, session par l (MkProcess 0 no_stats) = (p, [r]) /\ recorded LinearTime r = 13 /\ recorded NonlinearTime r = 15 /\ recorded (PartTime 4) r = 10 /\
    recorded ProductCalls r = 1 /\ recorded ProductCalls (counted p) = 2 /\ recorded LinearCalls (counted p) = 1.
Proof.
  cbv zeta. split; [repeat (apply Forall_nil || apply Forall_cons || (cbn; apply conj) || (cbn; lra))|]. split; [repeat constructor|]. split; [split; [reflexivity|left; exists 0%nat; reflexivity]|].
  split; [intros [_ [[k Hk]|Hk]]; [lia|discriminate Hk]|].
  do 2 eexists. split; [cbn; reflexivity|]. cbn. repeat split; lra.
Qed.
Print Assumptions C126_reports.
Print Assumptions C126_conservation.
Print Assumptions C126_nested.
Print Assumptions C126_processes.
Print Assumptions C126_row.
Print Assumptions C126_violation_projection.
Print Assumptions C126_defined.
Print Assumptions C126_violation_direct.
