(** * C41 (reinitialization steps and normals), C62 (independence of the output level),
    C63 (order of operations and additional smoothing) *)
From Coq Require Import Reals Lra Lia List Bool Arith.
From Verif Require Import Num Model_Bubble Properties_Bubble Model_Reinit.
Import ListNotations.
Local Open Scope nat_scope.

Section Spec.
Context {V NF E : Type} (o : reinit_ops V NF E).

(** ** Specification.  A [phase] makes at most [total] steps u := u + inc(u) and ends early exactly
    after a step with an increment of norm below 1e-6. *)
Definition advance (inc : V -> V) (u : V) : V := ro_add o u (inc u).
Definition tiny (x : V) : Prop := (ro_norm o x < 1/1000000)%R.
Definition phase (inc : V -> V) (total : nat) (u : V) (n : nat) (v : V) (stopped : bool) : Prop :=
  n <= total /\ v = Nat.iter n (advance inc) u /\
  (forall k, S k < n -> ~ tiny (inc (Nat.iter k (advance inc) u))) /\
  (stopped = true -> 0 < n /\ tiny (inc (Nat.iter (n - 1) (advance inc) u))) /\
  (stopped = false -> n = total /\ forall k, k < n -> ~ tiny (inc (Nat.iter k (advance inc) u))).

Lemma small_tiny : forall x, small o x = true <-> tiny x.
Proof. intro x. unfold small, tiny, Rltb. destruct (Rlt_dec _ _); split; intro H; easy. Qed.
Lemma small_not_tiny : forall x, small o x = false <-> ~ tiny x.
Proof. intro x. rewrite <- small_tiny. destruct (small o x); split; congruence. Qed.

Lemma iter_shift : forall (f : V -> V) n u, Nat.iter n f (f u) = Nat.iter (S n) f u.
Proof. intros f n u. induction n as [|n IH]; [easy|]. change (f (Nat.iter n f (f u)) = f (Nat.iter (S n) f u)). now rewrite IH. Qed.

Lemma phase_zero : forall inc u, phase inc 0 u 0 u false.
Proof. intros inc u. split; [lia|]. split; [easy|]. split; [intros k K; lia|]. split; [discriminate|]. intros _. split; [easy|intros k K; lia]. Qed.
Lemma phase_stop : forall inc total u, tiny (inc u) -> phase inc (S total) u 1 (advance inc u) true.
Proof.
  intros inc total u T. split; [lia|]. split; [easy|]. split; [intros k K; lia|]. split; [|discriminate].
  intros _. split; [lia|exact T].
Qed.
Lemma phase_step : forall inc total u n v s, ~ tiny (inc u) -> phase inc total (advance inc u) n v s ->
  phase inc (S total) u (S n) v s.
Proof.
  intros inc total u n v s T (A & B & C & D & F).
  split; [lia|]. split; [rewrite B; apply iter_shift|].
  split. { intros k K. destruct k as [|k]; [exact T|]. rewrite <- iter_shift. apply C. lia. }
  split.
  { intros S1. destruct (D S1) as [D1 D2]. split; [lia|]. replace (S n - 1) with (S (n - 1)) by lia. now rewrite <- iter_shift. }
  intros S1. destruct (F S1) as [F1 F2]. split; [lia|]. intros k K. destruct k as [|k]; [exact T|]. rewrite <- iter_shift. apply F2. lia.
Qed.

(** ** Matrix-free solver *)
(** compressive steps after the first one *)
Lemma mf_compress : forall ad n tau st, ad < tau ->
  exists c s, phase (ro_compress o (mf_eval st)) n (mf_sol st) c (mf_sol (fst (mf_loop o ad n tau st))) s /\
    snd (mf_loop o ad n tau st) = repeat EvCompress c.
Proof.
  intros ad n. induction n as [|n IH]; intros tau st L.
  { exists 0, false. split; [apply phase_zero|easy]. }
  cbn [mf_loop]. unfold mf_step. destruct (Nat.eqb_spec tau ad) as [X|_]; [lia|].
  destruct (Nat.ltb_spec tau ad) as [X|_]; [lia|].
  destruct (small o (ro_compress o (mf_eval st) (mf_sol st))) eqn:S1.
  - apply small_tiny in S1. exists 1, true. split; [now apply phase_stop|easy].
  - apply small_not_tiny in S1.
    destruct (IH (S tau) (MkMF (ro_add o (mf_sol st) (ro_compress o (mf_eval st) (mf_sol st))) (mf_nodal st) (mf_eval st)))
      as (c & s & P & T); [lia|].
    cbn [mf_sol mf_eval] in P.
    destruct (mf_loop o ad n (S tau) _) as [st'' ev'] eqn:M.
    cbn [fst snd app] in *. exists (S c), s. split; [now apply phase_step|now rewrite T].
Qed.

(** the first compressive step recomputes and stores the normals *)
Lemma mf_first : forall ad n st,
  exists c s, phase (ro_compress o (ro_evaluate o (ro_normals o (mf_sol st)))) n (mf_sol st) c (mf_sol (fst (mf_loop o ad n ad st))) s /\
    snd (mf_loop o ad n ad st) = (if Nat.eqb n 0 then [] else [EvNormals]) ++ repeat EvCompress c.
Proof.
  intros ad n st. destruct n as [|n].
  { exists 0, false. split; [apply phase_zero|easy]. }
  cbn [mf_loop]. unfold mf_step. rewrite Nat.eqb_refl, Nat.ltb_irrefl.
  cbn [Nat.eqb].
  set (e := ro_evaluate o (ro_normals o (mf_sol st))).
  destruct (small o (ro_compress o e (mf_sol st))) eqn:S1.
  - apply small_tiny in S1. exists 1, true. split; [now apply phase_stop|easy].
  - apply small_not_tiny in S1.
    destruct (mf_compress ad n (S ad) (MkMF (ro_add o (mf_sol st) (ro_compress o e (mf_sol st))) (ro_normals o (mf_sol st)) e))
      as (c & s & P & T); [lia|].
    cbn [mf_sol mf_eval] in P.
    destruct (mf_loop o ad n (S ad) _) as [st'' ev'] eqn:M.
    cbn [fst snd app] in *. exists (S c), s. split; [now apply phase_step|now rewrite T].
Qed.

Lemma mf_diffuse : forall stab k ad st, k <= ad ->
  exists d v s, phase (ro_diffuse o) k (mf_sol st) d v s /\
    if s then mf_sol (fst (mf_loop o ad (k + stab) (ad - k) st)) = v /\
              snd (mf_loop o ad (k + stab) (ad - k) st) = repeat EvDiffuse d
    else exists c t, phase (ro_compress o (ro_evaluate o (ro_normals o v))) stab v c (mf_sol (fst (mf_loop o ad (k + stab) (ad - k) st))) t /\
              snd (mf_loop o ad (k + stab) (ad - k) st) =
              repeat EvDiffuse d ++ (if Nat.eqb stab 0 then [] else [EvNormals]) ++ repeat EvCompress c.
Proof.
  intros stab k. induction k as [|k IH]; intros ad st L.
  { exists 0, (mf_sol st), false. split; [apply phase_zero|]. rewrite Nat.sub_0_r. cbn [Nat.add repeat app].
    destruct (mf_first ad stab st) as (c & t & P & T). exists c, t. easy. }
  cbn [Nat.add mf_loop]. unfold mf_step.
  destruct (Nat.eqb_spec (ad - S k) ad) as [X|_]; [lia|].
  destruct (Nat.ltb_spec (ad - S k) ad) as [_|X]; [|lia].
  destruct (small o (ro_diffuse o (mf_sol st))) eqn:S1.
  - apply small_tiny in S1. exists 1, (advance (ro_diffuse o) (mf_sol st)), true. split; [now apply phase_stop|easy].
  - apply small_not_tiny in S1.
    destruct (IH ad (MkMF (ro_add o (mf_sol st) (ro_diffuse o (mf_sol st))) (mf_nodal st) (mf_eval st)))
      as (d & v & s & P & T); [lia|].
    replace (ad - k) with (S (ad - S k)) in T by lia.
    cbn [mf_sol] in P.
    exists (S d), v, s. split; [now apply phase_step|].
    destruct (mf_loop o ad (k + stab) (S (ad - S k)) _) as [st'' ev'] eqn:M. cbn [fst snd] in *.
    destruct s.
    + destruct T as [T1 T2]. split; [exact T1|now rewrite T2].
    + destruct T as (c & t & T1 & T2). exists c, t. split; [exact T1|now rewrite T2].
Qed.

(** C41: a phase of at most diff_steps (+3) diffusive steps; unless it stopped early, then the normals
    are computed once from the current level set (if there is a compressive step) and at most
    stab_steps compressive steps follow, all with these normals. *)
Theorem C41_matrix_free : forall range stab diff st,
  let total_diff := actual_diff_steps range diff in
  let sol' := mf_sol (fst (mf_reinitialize o range stab diff st)) in
  let trace := snd (mf_reinitialize o range stab diff st) in
  ((fst range < - (102/100) \/ 102/100 < snd range)%R /\ total_diff = diff + 3 \/
   (- (102/100) <= fst range /\ snd range <= 102/100)%R /\ total_diff = diff) /\
  exists d v stopped, phase (ro_diffuse o) total_diff (mf_sol st) d v stopped /\
    if stopped then sol' = v /\ trace = repeat EvDiffuse d
    else exists c stopped', phase (ro_compress o (ro_evaluate o (ro_normals o v))) stab v c sol' stopped' /\
         trace = repeat EvDiffuse d ++ (if Nat.eqb stab 0 then [] else [EvNormals]) ++ repeat EvCompress c.
Proof.
  intros range stab diff st. cbv zeta. split.
  { unfold actual_diff_steps, Rltb. destruct (Rlt_dec (fst range) (-(102/100))) as [A|A], (Rlt_dec (102/100) (snd range)) as [B|B]; cbn [orb].
    - left. split; [left; exact A|reflexivity].
    - left. split; [left; exact A|reflexivity].
    - left. split; [right; exact B|reflexivity].
    - right. split; [lra|reflexivity]. }
  unfold mf_reinitialize. set (ad := actual_diff_steps range diff).
  destruct (mf_diffuse stab ad ad st (Nat.le_refl _)) as (d & v & s & P & T).
  rewrite Nat.sub_diag in T. exists d, v, s. easy.
Qed.

Definition count (ev : event) (t : list event) : nat :=
  length (filter (fun e => match ev, e with EvNormals, EvNormals | EvDiffuse, EvDiffuse | EvCompress, EvCompress => true | _, _ => false end) t).
Lemma count_app : forall e a b, count e (a ++ b) = count e a + count e b.
Proof. intros e a b. unfold count. now rewrite filter_app, app_length. Qed.
Lemma count_repeat_same : forall e n, count e (repeat e n) = n.
Proof. intros e n. unfold count. induction n as [|n IH]; [easy|]. destruct e; cbn in *; now rewrite IH. Qed.
Lemma count_repeat_other : forall e f n, e <> f -> count e (repeat f n) = 0.
Proof. intros e f n H. unfold count. induction n as [|n IH]; [easy|]. destruct e, f; cbn in *; easy. Qed.

Theorem C41_step_counts : forall range stab diff st,
  let trace := snd (mf_reinitialize o range stab diff st) in
  count EvDiffuse trace <= diff + 3 /\ count EvCompress trace <= stab /\ count EvNormals trace <= 1 /\
  (0 < count EvCompress trace -> count EvNormals trace = 1).
Proof.
  intros range stab diff st. cbv zeta.
  destruct (C41_matrix_free range stab diff st) as (A & d & v & s & P & T). cbv zeta in *.
  assert (D : d <= diff + 3) by (destruct P as [P _]; lia).
  destruct s.
  - destruct T as [_ T]. rewrite T.
    rewrite count_repeat_same, (count_repeat_other EvCompress), (count_repeat_other EvNormals) by discriminate. lia.
  - destruct T as (c & t & Q & T). rewrite T. rewrite !count_app.
    rewrite !count_repeat_same, !(count_repeat_other EvCompress), !(count_repeat_other EvNormals), !(count_repeat_other EvDiffuse) by discriminate.
    destruct Q as [Q _].
    destruct (Nat.eqb_spec stab 0) as [X|X]; cbn; lia.
Qed.

(** what is left in the normal fields from before the call is never used *)
Theorem C41_no_stale_normals : forall range stab diff st st', mf_sol st = mf_sol st' ->
  mf_sol (fst (mf_reinitialize o range stab diff st)) = mf_sol (fst (mf_reinitialize o range stab diff st')).
Proof.
  intros range stab diff st st' H. unfold mf_reinitialize. set (ad := actual_diff_steps range diff).
  assert (G : forall n tau a b, mf_sol a = mf_sol b -> (ad < tau -> mf_eval a = mf_eval b) ->
     mf_sol (fst (mf_loop o ad n tau a)) = mf_sol (fst (mf_loop o ad n tau b))).
  { induction n as [|n IH]; intros tau a b H1 H2; [exact H1|].
    cbn [mf_loop]. unfold mf_step. rewrite H1.
    destruct (Nat.ltb_spec tau ad) as [L|L].
    - destruct (small o (ro_diffuse o (mf_sol b))); [easy|].
      match goal with |- context [mf_loop o ad n (S tau) ?x] => specialize (IH (S tau) x) end.
      match goal with |- _ = mf_sol (fst (let '(_, _) := mf_loop o ad n (S tau) ?y in _)) => specialize (IH y eq_refl) end.
      destruct (mf_loop o ad n (S tau) _) eqn:M1, (mf_loop o ad n (S tau) (MkMF _ _ (mf_eval b))) eqn:M2.
      cbn [fst mf_eval] in *. apply IH. lia.
    - destruct (Nat.eqb_spec tau ad) as [X|X].
      + destruct (small o _); [easy|]. destruct (mf_loop o ad n (S tau) _) eqn:M1. easy.
      + rewrite (H2 ltac:(lia)). destruct (small o _); [easy|].
        match goal with |- context [mf_loop o ad n (S tau) ?x] => specialize (IH (S tau) x) end.
        match goal with |- _ = mf_sol (fst (let '(_, _) := mf_loop o ad n (S tau) ?y in _)) => specialize (IH y eq_refl) end.
        destruct (mf_loop o ad n (S tau) (MkMF _ (mf_nodal a) _)) eqn:M1, (mf_loop o ad n (S tau) (MkMF _ (mf_nodal b) _)) eqn:M2.
        cbn [fst mf_eval] in *. apply IH. easy. }
  apply G; [exact H|lia].
Qed.

(** ** Matrix-based solver *)
(** as soon as diffusive steps are requested, all steps are diffusive: no compression takes place *)
Lemma ms_loop_diffuse : forall diff n tau st dof, dof = true \/ tau < diff ->
  exists d s, phase (ro_diffuse o) n (ms_sol st) d (ms_sol (fst (ms_loop o diff n tau dof st))) s /\
     count EvCompress (snd (ms_loop o diff n tau dof st)) = 0 /\ count EvDiffuse (snd (ms_loop o diff n tau dof st)) = d.
Proof.
  intros diff n. induction n as [|n IH]; intros tau st dof H.
  { exists 0, false. split; [apply phase_zero|easy]. }
  cbn [ms_loop].
  assert (D : (if tau <? diff then true else dof) = true).
  { destruct (Nat.ltb_spec tau diff); [easy|]. destruct H; [easy|lia]. }
  rewrite D. clear D.
  set (rc := (diff <=? tau) && ((tau - diff) mod 8 =? 0)).
  set (st1 := if rc then ms_compute_normal o true st else st).
  assert (Q : ms_sol st1 = ms_sol st). { unfold st1, ms_compute_normal. now destruct rc, (ms_flag st). }
  rewrite Q. set (evn := if rc && negb (ms_flag st) then [EvNormals] else []).
  assert (EV : forall l, count EvCompress ((evn ++ [EvDiffuse]) ++ l) = count EvCompress l /\ count EvDiffuse ((evn ++ [EvDiffuse]) ++ l) = S (count EvDiffuse l)).
  { intro l. rewrite !count_app. unfold evn. destruct (rc && _); cbn; lia. }
  destruct (small o (ro_diffuse o (ms_sol st))) eqn:S1.
  - apply small_tiny in S1. exists 1, true. split; [now apply phase_stop|]. cbn [snd].
    destruct (EV []) as [E1 E2]. rewrite app_nil_r in E1, E2. rewrite E1, E2. easy.
  - apply small_not_tiny in S1.
    destruct (IH (S tau) (MkMS (ro_add o (ms_sol st) (ro_diffuse o (ms_sol st))) (ms_nodal st1) false) true (or_introl eq_refl)) as (d & s & P & T1 & T2).
    destruct (ms_loop o diff n (S tau) true _) as [st'' ev'] eqn:M. cbn [fst snd ms_sol] in *.
    exists (S d), s. split; [now apply phase_step|]. destruct (EV ev') as [E1 E2]. rewrite E1, E2. lia.
Qed.

Theorem C41_matrix_violation_only_diffusion : forall stab diff st, 0 < diff ->
  exists d s, phase (ro_diffuse o) (diff + stab) (ms_sol st) d (ms_sol (fst (ms_reinitialize o stab diff st))) s /\
    count EvCompress (snd (ms_reinitialize o stab diff st)) = 0 /\
    count EvDiffuse (snd (ms_reinitialize o stab diff st)) = d.
Proof. intros stab diff st H. unfold ms_reinitialize. apply ms_loop_diffuse. now right. Qed.

(** without diffusive steps: the normals are refreshed in every eighth step, except that the first
    block uses whatever normals were there if they are marked as computed *)
Fixpoint matrix_iterates (nodal0 : NF) (flag : bool) (u : V) (k : nat) : V * NF :=
  match k with
  | O => (u, nodal0)
  | S m =>
      let (w, nf) := matrix_iterates nodal0 flag u m in
      let nf' := if Nat.eqb (m mod 8) 0 then (if Nat.eqb m 0 && flag then nodal0 else ro_normals o w) else nf in
      (advance (ro_compress o (ro_evaluate o nf')) w, nf')
  end.

Lemma ms_loop_compress : forall nodal0 flag u n tau st,
  ms_sol st = fst (matrix_iterates nodal0 flag u tau) ->
  ms_nodal st = snd (matrix_iterates nodal0 flag u tau) ->
  ms_flag st = (if Nat.eqb tau 0 then flag else false) ->
  exists k, k <= n /\ ms_sol (fst (ms_loop o 0 n tau false st)) = fst (matrix_iterates nodal0 flag u (tau + k)) /\
    count EvCompress (snd (ms_loop o 0 n tau false st)) = k /\ count EvDiffuse (snd (ms_loop o 0 n tau false st)) = 0.
Proof.
  intros nodal0 flag u n. induction n as [|n IH]; intros tau st H1 H2 H3.
  { exists 0. rewrite Nat.add_0_r. split; [lia|]. split; [exact H1|easy]. }
  cbn [ms_loop]. cbn [Nat.leb andb Nat.ltb]. rewrite Nat.sub_0_r.
  set (rc := tau mod 8 =? 0).
  set (st1 := if rc then ms_compute_normal o true st else st).
  set (evn := if rc && negb (ms_flag st) then [EvNormals] else []).
  assert (Q : ms_sol st1 = ms_sol st). { unfold st1, ms_compute_normal. now destruct rc, (ms_flag st). }
  assert (IT : matrix_iterates nodal0 flag u (S tau) = (advance (ro_compress o (ro_evaluate o (ms_nodal st1))) (ms_sol st), ms_nodal st1)).
  { cbn [matrix_iterates]. destruct (matrix_iterates nodal0 flag u tau) as [w nf] eqn:MI. cbn [fst snd] in H1, H2.
    rewrite H1. fold rc. unfold st1, ms_compute_normal.
    destruct rc; cbn [andb]; [|now rewrite H2].
    rewrite H3. destruct (Nat.eqb_spec tau 0) as [X|X]; cbn [andb].
    - destruct flag; cbn [ms_nodal]; [|now rewrite H1].
      rewrite H2. subst tau. cbn in MI. inversion MI. easy.
    - cbn [ms_nodal]. now rewrite H1. }
  rewrite Q.
  assert (EV : forall l, count EvCompress ((evn ++ [EvCompress]) ++ l) = S (count EvCompress l) /\ count EvDiffuse ((evn ++ [EvCompress]) ++ l) = count EvDiffuse l).
  { intro l. rewrite !count_app. unfold evn. destruct (rc && _); cbn; lia. }
  set (inc := ro_compress o (ro_evaluate o (ms_nodal st1)) (ms_sol st)).
  destruct (small o inc).
  - exists 1. cbn [fst snd ms_sol]. split; [lia|]. rewrite Nat.add_1_r, IT. split; [easy|].
    destruct (EV []) as [E1 E2]. rewrite app_nil_r in E1, E2. now rewrite E1, E2.
  - destruct (IH (S tau) (MkMS (ro_add o (ms_sol st) inc) (ms_nodal st1) false)) as (k & K & A & B & C).
    { now rewrite IT. } { now rewrite IT. } { easy. }
    destruct (ms_loop o 0 n (S tau) false _) as [st'' ev'] eqn:M. cbn [fst snd ms_sol] in *.
    exists (S k). split; [lia|]. split; [rewrite A; f_equal; f_equal; lia|].
    destruct (EV ev') as [E1 E2]. rewrite E1, E2. lia.
Qed.

Theorem C41_matrix_normals : forall stab st,
  exists k, k <= stab /\
    ms_sol (fst (ms_reinitialize o stab 0 st)) = fst (matrix_iterates (ms_nodal st) (ms_flag st) (ms_sol st) k) /\
    count EvCompress (snd (ms_reinitialize o stab 0 st)) = k /\ count EvDiffuse (snd (ms_reinitialize o stab 0 st)) = 0.
Proof. intros stab st. unfold ms_reinitialize. now apply (ms_loop_compress (ms_nodal st) (ms_flag st) (ms_sol st) stab 0 st). Qed.

(** violation: from the second time step on, the first (up to) eight steps use the normals of the level
    set before the advection *)
Lemma iterates_fixed : forall nodal0 u k, k <= 8 ->
  fst (matrix_iterates nodal0 true u k) = Nat.iter k (advance (ro_compress o (ro_evaluate o nodal0))) u /\
  snd (matrix_iterates nodal0 true u k) = nodal0.
Proof.
  intros nodal0 u k. induction k as [|k IH]; intro K; [easy|].
  destruct (IH ltac:(lia)) as [A B]. cbn [matrix_iterates].
  destruct (matrix_iterates nodal0 true u k) as [w nf]. cbn [fst snd] in A, B.
  assert (R : (if k mod 8 =? 0 then if (k =? 0) && true then nodal0 else ro_normals o w else nf) = nodal0).
  { rewrite (Nat.mod_small k 8) by lia. destruct (Nat.eqb_spec k 0); [easy|]. exact B. }
  rewrite R. split; [|easy]. cbn [fst]. rewrite A. easy.
Qed.
Theorem C41_matrix_violation_stale_normals : forall stab advect0 advect st0, stab <= 8 ->
  let st := ms_time_step o stab advect0 st0 in
  exists k, k <= stab /\
    ms_sol (ms_time_step o stab advect st) =
      Nat.iter k (advance (ro_compress o (ro_evaluate o (ro_normals o (ms_sol st))))) (advect (ms_sol st)).
Proof.
  intros stab advect0 advect st0 L st.
  assert (F : ms_flag st = true /\ ms_nodal st = ro_normals o (ms_sol st)) by easy.
  destruct F as [F1 F2].
  destruct (C41_matrix_normals stab (MkMS (advect (ms_sol st)) (ms_nodal st) (ms_flag st))) as (k & K & A & _).
  exists k. split; [exact K|]. unfold ms_time_step at 1. cbn [ms_compute_normal andb ms_sol].
  cbn [ms_sol ms_nodal ms_flag] in A. rewrite A, F1, F2.
  apply iterates_fixed. lia.
Qed.
End Spec.

(** ** A concrete instance: one unknown; normal = sign of the value, compression moves along it *)
Local Open Scope R_scope.
Definition ex_ops : reinit_ops R R R :=
  MkRO (fun u => u) (fun n => n) (fun u => - (u / 2)) (fun e _ => e) Rplus Rabs.

Ltac rabs := repeat (let HH := fresh in
   match goal with
   | |- context [Rabs ?x] => destruct (Rle_dec 0 x) as [HH|HH]; [rewrite (Rabs_right x) by lra|rewrite (Rabs_left x) by lra]
   end; try lra).
Example C41_nonvacuous :
  mf_reinitialize ex_ops (0, 0) 2 1 (MkMF 8 99 99) = (MkMF 12 4 4, [EvDiffuse; EvNormals; EvCompress; EvCompress]) /\
  mf_sol (fst (mf_reinitialize ex_ops (0, 103/100) 0 0 (MkMF 8 99 99))) = 1.
Proof.
  unfold mf_reinitialize, actual_diff_steps. cbn [fst snd].
  rewrite (Rltb_false 0) by lra. rewrite (Rltb_false (102/100)) by lra. rewrite (Rltb_true (102/100)) by lra.
  cbn [orb]. cbn [Nat.add mf_loop mf_step Nat.eqb Nat.ltb Nat.leb].
  unfold mf_step. cbn [Nat.eqb Nat.ltb Nat.leb ex_ops ro_diffuse ro_compress ro_normals ro_evaluate ro_add ro_norm mf_sol mf_nodal mf_eval].
  unfold small. cbn [ro_norm ex_ops].
  split.
  - rewrite (Rltb_false (Rabs (- (8/2)))) by rabs. rewrite (Rltb_false (Rabs (8 + _))) by rabs.
    cbn [fst snd app]. repeat f_equal; lra.
  - rewrite (Rltb_false (Rabs (- (8/2)))) by rabs.
    cbn [fst snd app mf_sol].
    rewrite (Rltb_false (Rabs (- ((8 + - (8/2))/2)))) by rabs. cbn [fst snd app mf_sol].
    destruct (Rltb _ _); cbn; lra.
Qed.
(** the stale normals give a different level set than the right ones *)
Example C41_matrix_violation_stale_normals_witness :
  let st := ms_time_step ex_ops 1 (fun u => u) (MkMS 1 0 false) in
  ms_sol st = 2 /\ ms_sol (ms_time_step ex_ops 1 (fun u => u + 10) st) = 14 /\
  advance ex_ops (ro_compress ex_ops (ro_evaluate ex_ops (ro_normals ex_ops 12))) 12 = 24.
Proof.
  cbv zeta. unfold ms_time_step, ms_reinitialize, ms_compute_normal, advance.
  cbn [Nat.add ms_loop Nat.leb Nat.sub Nat.modulo Nat.divmod snd fst Nat.eqb andb negb Nat.ltb ms_compute_normal ms_flag ms_sol ms_nodal
       ex_ops ro_diffuse ro_compress ro_normals ro_evaluate ro_add].
  unfold small. cbn [ro_norm ex_ops].
  rewrite (Rltb_false (Rabs 1)) by rabs. cbn [fst snd ms_sol ms_nodal ms_flag app].
  unfold ms_compute_normal. cbn [andb ms_flag ms_sol ms_nodal fst ex_ops ro_normals].
  rewrite (Rltb_false (Rabs (1 + 1))) by rabs.
  cbn [fst snd ms_sol ms_nodal ms_flag app]. repeat split; lra.
Qed.
(** with diffusive steps requested the matrix-based solver only diffuses, where the matrix-free one
    compresses *)
Example C41_matrix_violation_only_diffusion_witness :
  snd (ms_reinitialize ex_ops 1 1 (MkMS 8 0 true)) = [EvDiffuse; EvNormals; EvDiffuse] /\
  snd (mf_reinitialize ex_ops (0,0) 1 1 (MkMF 8 0 0)) = [EvDiffuse; EvNormals; EvCompress].
Proof.
  unfold ms_reinitialize, mf_reinitialize, actual_diff_steps. cbn [fst snd].
  rewrite (Rltb_false 0) by lra. rewrite (Rltb_false (102/100)) by lra. cbn [orb].
  cbn [Nat.add ms_loop mf_loop]. unfold mf_step, small, ms_compute_normal.
  cbn [Nat.eqb Nat.ltb Nat.leb Nat.sub Nat.modulo Nat.divmod andb negb ms_flag ms_sol ms_nodal fst snd ex_ops ro_diffuse ro_compress ro_normals ro_evaluate ro_add ro_norm mf_sol mf_nodal mf_eval].
  rewrite (Rltb_false (Rabs (- (8/2)))) by rabs.
  split.
  - cbn [Nat.eqb Nat.ltb Nat.leb Nat.sub Nat.modulo Nat.divmod andb negb ms_flag ms_sol ms_nodal fst snd].
    destruct (Rltb _ _); reflexivity.
  - rewrite (Rltb_false (Rabs (8 + _))) by rabs. easy.
Qed.

(** ** C62: the level set must not depend on the output level *)
Theorem C62_same_if_in_range : forall (V NF E : Type) (o : reinit_ops V NF E) range_of verbosity verbosity' stab advect n st,
  (forall u, -(102/100) <= fst (range_of u) /\ snd (range_of u) <= 102/100) ->
  -(102/100) <= fst (tps_range st) /\ snd (tps_range st) <= 102/100 ->
  tps_ls (tp_run o range_of verbosity stab advect n st) = tps_ls (tp_run o range_of verbosity' stab advect n st).
Proof.
  intros V NF E o range_of v v' stab advect n st H S0.
  assert (G : forall w m, let r := tp_run o range_of w stab advect m st in -(102/100) <= fst (tps_range r) /\ snd (tps_range r) <= 102/100).
  { intros w m. induction m as [|m IH]; [exact S0|]. cbv zeta in *. cbn [tp_run].
    unfold tp_statistics. destruct (0 <? w)%nat; [cbn [tps_range]; apply H|exact IH]. }
  assert (A : forall r, -(102/100) <= fst r /\ snd r <= 102/100 -> actual_diff_steps r 0 = 0%nat).
  { intros r [R1 R2]. unfold actual_diff_steps. rewrite Rltb_false, Rltb_false by lra. easy. }
  induction n as [|n IH]; [easy|]. cbn [tp_run].
  assert (B : forall w (s : tp_state V NF E), tps_ls (tp_statistics range_of w s) = tps_ls s) by (intros w s; unfold tp_statistics; now destruct (0 <? w)%nat).
  rewrite !B. unfold tp_time_step. cbn [tps_ls]. rewrite IH. unfold mf_reinitialize.
  rewrite (A _ (G v n)), (A _ (G v' n)). easy.
Qed.
(** violation: a level set outside of [-1.02, 1.02] is diffused additionally if and only if the
    statistics are printed *)
Theorem C62_violation : forall (V NF E : Type) (o : reinit_ops V NF E) range_of advect st,
  let u1 := advect (mf_sol (tps_ls st)) in
  -(102/100) <= fst (tps_range st) /\ snd (tps_range st) <= 102/100 ->
  102/100 < snd (range_of u1) ->
  mf_sol (tps_ls (tp_run o range_of 0 0 advect 2 st)) = advect u1 /\
  exists d s, phase o (ro_diffuse o) 3 (advect u1) d (mf_sol (tps_ls (tp_run o range_of 1 0 advect 2 st))) s /\ (0 < d)%nat.
Proof.
  intros V NF E o range_of advect st u1 [R1 R2] H.
  assert (A0 : actual_diff_steps (tps_range st) 0 = 0%nat).
  { unfold actual_diff_steps. rewrite Rltb_false, Rltb_false by lra. easy. }
  split.
  - cbn [tp_run]. unfold tp_statistics. cbn [Nat.ltb Nat.leb]. unfold tp_time_step. cbn [tps_ls tps_range].
    unfold mf_reinitialize. rewrite A0. cbn [Nat.add mf_loop fst mf_sol]. easy.
  - set (st1 := tp_run o range_of 1 0 advect 1 st).
    assert (S1 : mf_sol (tps_ls st1) = u1 /\ tps_range st1 = range_of u1).
    { unfold st1. cbn [tp_run]. unfold tp_statistics. cbn [Nat.ltb Nat.leb]. unfold tp_time_step. cbn [tps_ls tps_range].
      unfold mf_reinitialize. rewrite A0. cbn [Nat.add mf_loop fst mf_sol]. easy. }
    destruct S1 as [S1 S2].
    change (tp_run o range_of 1 0 advect 2 st) with (tp_statistics range_of 1 (tp_time_step o 0 advect st1)).
    clearbody st1.
    unfold tp_statistics. cbn [Nat.ltb Nat.leb tps_ls]. unfold tp_time_step. cbn [tps_ls].
    destruct (C41_matrix_free o (tps_range st1) 0 0 (MkMF (advect (mf_sol (tps_ls st1))) (mf_nodal (tps_ls st1)) (mf_eval (tps_ls st1))))
      as (_ & d & v & s & P & T). cbv zeta in P, T. cbn [mf_sol] in P, T.
    assert (A3 : actual_diff_steps (tps_range st1) 0 = 3%nat).
    { unfold actual_diff_steps. rewrite S2. rewrite (Rltb_true (102/100)) by exact H. now rewrite orb_true_r. }
    rewrite A3 in P. rewrite S1 in *.
    exists d, s.
    assert (D : (0 < d)%nat).
    { destruct P as (_ & _ & _ & P1 & P2). destruct s; [now apply P1|]. destruct (P2 eq_refl). lia. }
    split; [|exact D].
    destruct s.
    + destruct T as [T _]. rewrite T. exact P.
    + destruct T as (c & t & (Q1 & Q2 & _) & _). assert (c = 0%nat) by lia. subst c. cbn in Q2. rewrite Q2. exact P.
Qed.
Example C62_witness :
  mf_sol (tps_ls (tp_run ex_ops (fun u => (-1, u)) 0 0 (fun u => u) 2 (MkTPS (MkMF 8 0 0) (0,0)))) = 8.
Proof. apply (C62_violation R R R ex_ops (fun u => (-1, u)) (fun u => u) (MkTPS (MkMF 8 0 0) (0,0))); cbn; lra. Qed.

(** ** C63: order of operations in a level set time step *)
(** what is remembered for the next step: the residual of the configuration the flow solver starts from, the step of the last smoothing *)
Theorem C63_memory : forall n_reinit step_no res1 res2 s,
  let r := ls_time_step n_reinit step_no res1 res2 s in
  sm_last_refine (snd r) = sm_last_refine s /\
  (In (CReinit n_reinit 10) (fst r) -> sm_old_residual (snd r) = res2 /\ sm_last_smoothing (snd r) = step_no) /\
  (~ In (CReinit n_reinit 10) (fst r) -> sm_old_residual (snd r) = res1 /\ sm_last_smoothing (snd r) = sm_last_smoothing s).
Proof.
  intros n_reinit step_no res1 res2 s. cbv zeta. unfold ls_time_step. destruct (needs_smoothing step_no s res1); cbn [fst snd sm_old_residual sm_last_smoothing sm_last_refine].
  - split; [reflexivity|]. split; [auto|]. intros H. exfalso. apply H. cbn. auto 10.
  - split; [reflexivity|]. split; [|auto]. intros H. exfalso. cbn in H. intuition discriminate.
Qed.
Theorem C63_order : forall n_reinit step_no res1 res2 s,
  exists tail, fst (ls_time_step n_reinit step_no res1 res2 s) = [CAdvance; CReinit n_reinit 0; CForce; CResidual] ++ tail /\
   (tail = [CSolve] \/ tail = [CReinit n_reinit 10; CForce; CResidual; CSolve]) /\
   (tail <> [CSolve] <-> (sm_last_smoothing s + 3 < step_no /\ sm_last_refine s + 2 < step_no)%nat /\ 2 * sm_old_residual s <= res1).
Proof.
  intros n_reinit step_no res1 res2 s. unfold ls_time_step.
  destruct (needs_smoothing step_no s res1) eqn:Q; cbn [fst].
  - exists [CReinit n_reinit 10; CForce; CResidual; CSolve]. split; [easy|]. split; [now right|].
    unfold needs_smoothing in Q. apply andb_true_iff in Q. destruct Q as [Q1 Q3]. apply andb_true_iff in Q1. destruct Q1 as [Q1 Q2].
    apply Nat.ltb_lt in Q1. apply Nat.ltb_lt in Q2. unfold Rleb in Q3. destruct (Rle_dec _ _); [|discriminate].
    split; [intros _; split; [lia|assumption]|discriminate].
  - exists [CSolve]. split; [easy|]. split; [now left|]. split; [congruence|].
    intros [[A B] C] _. unfold needs_smoothing in Q.
    rewrite (proj2 (Nat.ltb_lt (3 + _) _)) in Q by lia. rewrite (proj2 (Nat.ltb_lt (2 + _) _)) in Q by lia.
    unfold Rleb in Q. destruct (Rle_dec _ _); [discriminate|contradiction].
Qed.
(** two smoothings are at least four steps apart, whatever the residuals and refinements are: [rs k]
    gives the residuals of step k and the step of the last refinement *)
Fixpoint smooth_run (n_reinit : nat) (rs : nat -> R * R) (refine : nat -> nat) (n : nat) (s : smooth_state) : smooth_state :=
  match n with
  | O => s
  | S m => let s' := smooth_run n_reinit rs refine m s in
           snd (ls_time_step n_reinit (S m) (fst (rs m)) (snd (rs m)) (MkSM (sm_old_residual s') (sm_last_smoothing s') (refine m)))
  end.
Definition smooths (n_reinit : nat) (rs : nat -> R * R) (refine : nat -> nat) (s : smooth_state) (k : nat) : Prop :=
  let s' := smooth_run n_reinit rs refine k s in
  needs_smoothing (S k) (MkSM (sm_old_residual s') (sm_last_smoothing s') (refine k)) (fst (rs k)) = true.
Theorem C63_smoothing_distance : forall n_reinit rs refine s j k, (j < k)%nat ->
  smooths n_reinit rs refine s j -> smooths n_reinit rs refine s k -> (4 <= k - j)%nat.
Proof.
  intros n_reinit rs refine s j k L Hj Hk.
  assert (A : forall d, (S j <= sm_last_smoothing (smooth_run n_reinit rs refine (S j + d) s))%nat).
  { induction d as [|d IH].
    - rewrite Nat.add_0_r. cbn [smooth_run]. unfold ls_time_step. unfold smooths in Hj. cbv zeta in Hj. rewrite Hj. cbn. lia.
    - replace (S j + S d)%nat with (S (S j + d)) by lia. cbn [smooth_run]. unfold ls_time_step.
      destruct (needs_smoothing _ _ _); cbn [snd sm_last_smoothing]; [lia|exact IH]. }
  specialize (A (k - S j)%nat). replace (S j + (k - S j))%nat with k in A by lia.
  unfold smooths, needs_smoothing in Hk. cbv zeta in Hk. cbn [sm_last_smoothing] in Hk.
  apply andb_true_iff in Hk. destruct Hk as [Hk _]. apply andb_true_iff in Hk. destruct Hk as [Hk _].
  apply Nat.ltb_lt in Hk. lia.
Qed.
Example C63_nonvacuous :
  fst (ls_time_step 2 10 5 1 (MkSM 2 6 7)) = [CAdvance; CReinit 2 0; CForce; CResidual; CReinit 2 10; CForce; CResidual; CSolve] /\
  fst (ls_time_step 2 9 5 1 (MkSM 2 6 6)) = [CAdvance; CReinit 2 0; CForce; CResidual; CSolve].
Proof.
  unfold ls_time_step, needs_smoothing, Rleb. cbn [sm_old_residual sm_last_smoothing sm_last_refine].
  destruct (Rle_dec (2*2) 5); [|lra]. split; reflexivity.
Qed.

Print Assumptions C41_matrix_free.
Print Assumptions C41_step_counts.
Print Assumptions C41_no_stale_normals.
Print Assumptions C41_matrix_violation_only_diffusion.
Print Assumptions C41_matrix_normals.
Print Assumptions C41_matrix_violation_stale_normals.
Print Assumptions C62_same_if_in_range.
Print Assumptions C62_violation.
Print Assumptions C63_order.
Print Assumptions C63_memory.
Print Assumptions C63_smoothing_distance.
