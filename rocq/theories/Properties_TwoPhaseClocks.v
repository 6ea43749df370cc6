(** * C46: the clocks of a two-phase run *)
From Coq Require Import ZArith QArith Reals Lra Lia List Bool.
From Verif Require Import Num NumQ Model_TimeStepping Spec_TimeStepping Transfer_TimeStepping
  Proofs_TimeStepping Proofs_TimeStepping2 Model_TwoPhaseClocks.
Import ListNotations.
Local Open Scope R_scope.

(** ** Specification *)
Definition same_times (a b : clock RNum) : Prop :=
  now a = now b /\ previous a = previous b /\ step_size a = step_size b /\ step_no a = step_no b /\
  at_end a = at_end b.
Definition same_weights (a b : clock RNum) : Prop :=
  weight a = weight b /\ weight_old a = weight_old b /\ weight_old_old a = weight_old_old b /\
  old_step_size a = old_step_size b /\ tau1 a = tau1 b /\ tau2 a = tau2 b /\
  (forall x y : R, extrapolate (N:=RNum) a x y = extrapolate (N:=RNum) b x y).
(** parameters with bounds that make sense *)
Definition sensible (p : ts_params RNum) : Prop :=
  0 < tp_step_min p /\ tp_step_min p <= tp_step_start p <= tp_step_max p /\
  tp_step_start p / 100000000000000 <= tp_end p - tp_start p.
(** the user stops at the end: before each time step the flow clock is not at its end *)
Definition legal_run (ds : nat -> option R) (sm : nat -> bool) (n : nat) (k : clocks RNum) : Prop :=
  forall m, (m < n)%nat -> at_end (ck_ns (two_phase_loop (N:=RNum) ds sm m k)) = false.

(** ** One step *)
Definition settled (c : clock RNum) : Prop :=
  step_val c = current_step_val c /\ 0 < min_step_val c /\ min_step_val c <= current_step_val c <= max_step_val c.

Lemma with_step_id (c : clock RNum) : step_val c = current_step_val c -> with_step c (current_step_val c) = c.
Proof. intros H. destruct c. cbn in *. unfold with_step; cbn. now rewrite H. Qed.

Lemma desired_spec (c : clock RNum) (d : R) : 0 < min_step_val c -> min_step_val c <= current_step_val c <= max_step_val c ->
  let s := desired_step c d in
  min_step_val c <= s <= max_step_val c /\
  (now_val c <> 0 -> current_step_val c / 2 <= s <= 2 * current_step_val c) /\
  (min_step_val c <= d <= max_step_val c -> (now_val c = 0 \/ current_step_val c / 2 <= d <= 2 * current_step_val c) -> s = d) /\
  (d <= s \/ s = max_step_val c \/ (now_val c <> 0 /\ s = 2 * current_step_val c)).
Proof.
  intros A B s. unfold s, desired_step, nmin, nmax. rnum. q2r. rnum. rcase; repeat split; intros; rnum; try lra.
Qed.

Lemma settled_next_s (c : clock RNum) : settled c -> next_s c = current_step_val c.
Proof.
  intros (A & B & C). unfold next_s. destruct (not_at_start c); [|easy].
  rewrite A. replace (if _ : bool then current_step_val c else current_step_val c) with (current_step_val c) by now destruct (_ && _).
  unfold ngtb. rnum. rcase; [lra|easy].
Qed.

Lemma request_settled (c : clock RNum) d : settled c ->
  exists s, request_step c d = with_step c s /\ min_step_val c <= s <= max_step_val c /\
    (now_val c <> 0 -> current_step_val c / 2 <= s <= 2 * current_step_val c).
Proof.
  intros (A & B & C). destruct d as [d|].
  - exists (desired_step c d). destruct (desired_spec c d B C) as (D1 & D2 & _). easy.
  - exists (current_step_val c). split; [symmetry; apply with_step_id, A|]. split; [easy|]. intros _. lra.
Qed.

Lemma with_settled (c : clock RNum) s : 0 < min_step_val c -> min_step_val c <= s <= max_step_val c -> settled (with_step c s).
Proof. intros A B. split; [easy|]. split; [exact A|exact B]. Qed.

Lemma hits_with (c : clock RNum) s : 0 < min_step_val c -> min_step_val c <= s <= max_step_val c -> at_end c = false ->
  next_hits_end (with_step c s) = Rltb (final_val c - 1/100 * s) (now_val c + s).
Proof.
  intros A B C. unfold next_hits_end. rewrite (settled_next_s _ (with_settled c s A B)).
  unfold at_end in C. cbn [with_step at_end_val now_val final_val current_step_val]. rewrite C.
  unfold ngtb. rnum. q2r. cbn [negb andb]. f_equal.
Qed.

Lemma sync_step (c : clock RNum) (d : option R) : settled c -> at_end c = false ->
  let ns := next (request_step c d) in
  let adv := advance_concentration_clock c (step_size ns) in
  same_times ns adv /\
  (at_end ns = false -> adv = ns /\ settled ns).
Proof.
  intros S E ns adv.
  destruct (request_settled c d S) as (s & R1 & R2 & R3).
  pose proof S as (S1 & S2 & S3).
  pose proof (settled_next_s _ (with_settled c s S2 R2)) as Ns. cbn [with_step current_step_val] in Ns.
  pose proof (hits_with c s S2 R2 E) as Hs.
  subst adv ns. unfold advance_concentration_clock, set_desired_time_step. rewrite R1. clear R1.
  destruct (Rltb (final_val c - 1/100 * s) (now_val c + s)) eqn:Q.
  - (* the end is hit *)
    apply Rltb_true in Q.
    assert (ST : step_size (next (with_step c s)) = final_val c - now_val c).
    { unfold step_size. cbn [next current_step_val]. unfold next_step. rewrite Hs. reflexivity. }
    rewrite ST. set (s2 := desired_step c (final_val c - now_val c)).
    destruct (desired_spec c (final_val c - now_val c) S2 S3) as (D1 & D2 & D3 & D4).
    fold s2 in D1, D2, D3, D4.
    pose proof (hits_with c s2 S2 D1 E) as Hs2.
    rewrite (proj2 (Rltb_true _ _)) in Hs2.
    2:{ destruct D4 as [D4|[D4|[D4 D5]]]; [lra|lra|]. specialize (R3 D4). lra. }
    split.
    + unfold same_times, now, previous, step_size, step_no, at_end. cbn [next now_val prev_val current_step_val step_no_val at_end_val].
      unfold next_time, next_step. rewrite Hs, Hs2. cbn [with_step now_val final_val step_no_val at_end_val]. easy.
    + intros X. exfalso. unfold at_end in X. cbn [next at_end_val] in X. rewrite Hs in X. rewrite orb_true_r in X. discriminate.
  - assert (ST : step_size (next (with_step c s)) = s).
    { unfold step_size. cbn [next current_step_val]. unfold next_step. rewrite Hs. exact Ns. }
    rewrite ST.
    destruct (desired_spec c s S2 S3) as (D1 & D2 & D3 & D4).
    rewrite D3; [|exact R2|].
    2:{ destruct (Req_dec (now_val c) 0) as [Z|Z]; [now left|right; now apply R3]. }
    split; [unfold same_times; easy|]. intros _. split; [reflexivity|].
    unfold settled. cbn [next step_val current_step_val min_step_val max_step_val with_step].
    unfold next_step. rewrite Hs. rewrite Ns. easy.
Qed.

Lemma setup_sync (p : ts_params RNum) : sensible p ->
  ck_ns (setup_clocks p) = restart (ts_init p) /\
  (at_end (ck_ns (setup_clocks p)) = false /\ ck_adv (setup_clocks p) = ck_ns (setup_clocks p)) /\ settled (ck_ns (setup_clocks p)).
Proof.
  intros (A & B & C). split; [reflexivity|].
  assert (E : nltb (n:=RNum) (ndiv (nsub (tp_end p) (tp_start p)) (tp_step_start p)) (nlit (1 # 100000000000000)) = false).
  { rnum. q2r. apply Rltb_false. apply (Rmult_le_reg_r (tp_step_start p)); [lra|]. replace ((tp_end p - tp_start p) / tp_step_start p * tp_step_start p) with (tp_end p - tp_start p) by (field; lra). lra. }
  split.
  - unfold setup_clocks. cbn [ck_ns ck_adv]. unfold restart, ts_init_flow, ts_init, at_end.
    cbn [start_val final_val scheme_val start_step_val max_step_val min_step_val weight_val weight_old_val weight_old_old_val factor_extrapol_old
         factor_extrapol_old_old prev_val tau1_val tau2_val at_end_val]. rewrite E. split; reflexivity.
  - unfold settled, setup_clocks. cbn. rnum. repeat split; lra.
Qed.

Lemma loop_sync (p : ts_params RNum) ds sm n : sensible p -> legal_run ds sm n (setup_clocks p) ->
  let k := two_phase_loop (N:=RNum) ds sm n (setup_clocks p) in
  same_times (ck_ns k) (ck_adv k) /\ (at_end (ck_ns k) = false -> ck_adv k = ck_ns k /\ settled (ck_ns k)).
Proof.
  intros P. induction n as [|n IH]; intros L k.
  - destruct (setup_sync p P) as (_ & [A B] & C). unfold k. cbn [two_phase_loop]. rewrite B. split; [unfold same_times; easy|]. easy.
  - destruct IH as [_ IH]; [intros m M; apply L; lia|].
    assert (E : at_end (ck_ns (two_phase_loop (N:=RNum) ds sm n (setup_clocks p))) = false) by (apply L; lia).
    destruct (IH E) as [I1 I2]. unfold k. cbn [two_phase_loop]. unfold two_phase_step. cbn [ck_ns ck_adv].
    rewrite I1. apply (sync_step _ (ds n) I2 E).
Qed.

(** C46 (times): the advection clock always shows the same times and step sizes as the flow clock *)
Theorem C46_advection_times : forall (p : ts_params RNum) ds sm n, sensible p -> legal_run ds sm n (setup_clocks p) ->
  let k := two_phase_loop (N:=RNum) ds sm n (setup_clocks p) in same_times (ck_ns k) (ck_adv k).
Proof. intros p ds sm n P L. apply (loop_sync p ds sm n P L). Qed.
(** C46 (weights): before the final step also the weights of the scheme agree *)
Theorem C46_advection_weights_partial : forall (p : ts_params RNum) ds sm n, sensible p -> legal_run ds sm n (setup_clocks p) ->
  let k := two_phase_loop (N:=RNum) ds sm n (setup_clocks p) in
  at_end (ck_ns k) = false -> same_weights (ck_ns k) (ck_adv k).
Proof.
  intros p ds sm n P L k E. destruct (loop_sync p ds sm n P L) as [_ A]. fold k in A. destruct (A E) as [B _]. rewrite B.
  unfold same_weights. easy.
Qed.

(** violation: in a shortened final step of a run with fixed time step, the advection clock believes in
    a different previous step size, so that the BDF-2 weights of the level set equation differ from
    those of the momentum equation *)
Theorem C46_violation_final_weights : forall (p : ts_params RNum) ds sm n, sensible p -> tp_scheme p = bdf_2 ->
  legal_run ds sm (S n) (setup_clocks p) -> ds n = None ->
  let k := two_phase_loop (N:=RNum) ds sm n (setup_clocks p) in
  let k' := two_phase_loop (N:=RNum) ds sm (S n) (setup_clocks p) in
  now (ck_ns k) <> tp_start p -> now (ck_ns k) <> 0 -> tp_step_min p < step_size (ck_ns k) ->
  at_end (ck_ns k') = true -> 0 < step_size (ck_ns k') < step_size (ck_ns k) ->
  old_step_size (ck_ns k') = step_size (ck_ns k) /\
  old_step_size (ck_adv k') < old_step_size (ck_ns k') /\
  weight_old (ck_adv k') <> weight_old (ck_ns k') /\ weight_old_old (ck_adv k') <> weight_old_old (ck_ns k').
Proof.
  intros p ds sm n P SC L D k k' NS N0 MS AE SZ.
  destruct (loop_sync p ds sm n P) as [_ A]. { intros m M. apply L. lia. }
  assert (E : at_end (ck_ns k) = false) by (apply L; lia).
  fold k in A. destruct (A E) as [B S]. clear A.
  assert (K : k' = two_phase_step (N:=RNum) (ds n) (sm n) k) by reflexivity.
  unfold two_phase_step in K. rewrite D, B in K. cbn [request_step] in K.
  set (c := ck_ns k) in *.
  assert (CN : ck_ns k' = next c) by now rewrite K.
  assert (CA : ck_adv k' = next (with_step c (desired_step c (step_size (next c))))) by now rewrite K.
  rewrite CN in *. rewrite CA. clear CN CA K k'.
  assert (CONST : start_val c = tp_start p /\ scheme_val c = bdf_2 /\ min_step_val c = tp_step_min p).
  { unfold c, k. clear - SC. induction n as [|n IH]; [easy|]. cbn [two_phase_loop]. unfold two_phase_step. cbn [ck_ns next start_val scheme_val min_step_val].
    destruct (ds n); exact IH. }
  destruct CONST as (C1 & C2 & C3).
  pose proof S as (S1 & S2 & S3).
  unfold now, step_size, old_step_size, weight_old, weight_old_old in *.
  assert (NAS : forall s, not_at_start (with_step c s) = true).
  { intro s. unfold not_at_start. cbn [with_step now_val start_val]. rewrite C1. rnum. now rewrite (proj2 (Reqb_false _ _) NS). }
  assert (NASc : not_at_start c = true) by (specialize (NAS 0); exact NAS).
  pose proof (settled_next_s c S) as Ns.
  assert (HE : next_hits_end c = true).
  { unfold at_end in AE, E. cbn [next at_end_val] in AE. rewrite E in AE. exact AE. }
  set (h := current_step_val c) in *. set (r := current_step_val (next c)) in *.
  assert (RE : r = final_val c - now_val c). { unfold r. cbn [next current_step_val]. unfold next_step. rewrite HE. reflexivity. }
  destruct (desired_spec c r S2 S3) as (D1 & D2 & D3 & D4).
  assert (LT : desired_step c r < h).
  { fold h in D1, D2, D3, D4. unfold desired_step, nmin, nmax. fold h. clear - N0 SZ MS C3 S3. rnum. q2r. rnum. rcase; lra. }
  set (s2 := desired_step c r) in *.
  pose proof (hits_with c s2 S2 D1 E) as H2. rewrite (proj2 (Rltb_true _ _)) in H2.
  2:{ fold h in D4. lra. }
  assert (OLD1 : last_step_val (next c) = h). { cbn [next last_step_val]. unfold next_last. now rewrite NASc. }
  assert (OLD2 : last_step_val (next (with_step c s2)) = s2). { cbn [next last_step_val]. unfold next_last. now rewrite NAS. }
  rewrite OLD1, OLD2. split; [easy|]. split; [exact LT|].
  assert (U1 : next_uses_bdf c = true). { unfold next_uses_bdf. now rewrite C2, NASc. }
  assert (U2 : next_uses_bdf (with_step c s2) = true). { unfold next_uses_bdf. rewrite NAS. cbn [with_step scheme_val]. now rewrite C2. }
  assert (R1 : next_step c = r) by reflexivity.
  assert (R2 : next_step (with_step c s2) = r). { unfold next_step. rewrite H2. cbn [with_step final_val now_val]. now rewrite RE. }
  assert (L1 : next_last c = h) by exact OLD1. assert (L2 : next_last (with_step c s2) = s2) by exact OLD2.
  cbn [next weight_old_val weight_old_old_val].
  unfold next_weight_old, next_weight_old_old. rewrite U1, U2, R1, R2, L1, L2. rnum.
  assert (r > 0) by lra. assert (0 < s2) by lra.
  assert (E1 : forall x, 0 < x -> (r + x) / (r * x) = / x + / r) by (intros x X; field; lra).
  split.
  - rewrite (E1 s2), (E1 h) by lra. intros X. assert (/ h < / s2) by (apply Rinv_lt_contravar; [nra|lra]). lra.
  - intros X. assert (Y : r / (h * (r + h)) < r / (s2 * (r + s2))).
    { apply Rmult_lt_compat_l; [lra|]. apply Rinv_lt_contravar; [|nra]. apply Rmult_lt_0_compat; nra. }
    lra.
Qed.

(** ** The reinitialization clock *)
Fixpoint count_smoothing (sm : nat -> bool) (n : nat) : nat :=
  match n with O => O | S m => (count_smoothing sm m + (if sm m then 1 else 0))%nat end.
Theorem C46_reinit_runs_ahead : forall (N : Num) (p : ts_params N) ds sm n,
  let k := two_phase_loop ds sm n (setup_clocks p) in
  step_no (ck_ns k) = (Z.of_nat n mod 4294967296)%Z /\
  step_no (ck_reinit k) = (Z.of_nat (n + 1 + count_smoothing sm n) mod 4294967296)%Z.
Proof.
  intros N p ds sm n. cbv zeta. induction n as [|n [IH1 IH2]].
  { split; reflexivity. }
  cbn [two_phase_loop count_smoothing]. unfold two_phase_step. cbn [ck_ns ck_reinit].
  unfold step_no in *. split.
  - cbn [next step_no_val]. destruct (ds n); cbn [request_step set_desired_time_step with_step step_no_val]; rewrite IH1;
    rewrite Zplus_mod_idemp_l; f_equal; lia.
  - destruct (sm n); cbn [reinitialize_clock next set_desired_time_step with_step step_no_val]; rewrite IH2.
    + rewrite (Zplus_mod_idemp_l (Z.of_nat (n + 1 + count_smoothing sm n)) 1). rewrite Zplus_mod_idemp_l. f_equal; lia.
    + rewrite Zplus_mod_idemp_l. f_equal; lia.
Qed.

(** violation: for every run with a fixed step size that divides the time interval, the
    reinitialization clock is at its end while the last time step is still to be done; that step
    advances it beyond the final time *)
Lemma settled_after (c : clock RNum) (s d : R) : settled c -> d = current_step_val c -> desired_step c d = d.
Proof. intros (A & B & C) E. destruct (desired_spec c d B C) as (_ & _ & D & _). apply D; lra. Qed.

Definition uniform_state (p : ts_params RNum) (K : nat) (j : nat) (c : clock RNum) : Prop :=
  now c = tp_start p + INR j * tp_step_start p /\ step_size c = tp_step_start p /\ step_val c = current_step_val c /\
  final_val c = tp_end p /\ min_step_val c = tp_step_min p /\ max_step_val c = tp_step_max p /\
  at_end c = (K <=? j)%nat.
Lemma uniform_next (p : ts_params RNum) (K j : nat) (c : clock RNum) : sensible p -> tp_end p = tp_start p + INR K * tp_step_start p ->
  uniform_state p K j c -> uniform_state p K (S j) (next c).
Proof.
  intros (P1 & P2 & P3) EK (A1 & A2 & A3 & A4 & A5 & A6 & A7).
  unfold now, step_size, at_end in *.
  assert (ST : settled c). { unfold settled. rewrite A2, A5, A6 in *. repeat split; try lra; assumption. }
  pose proof (settled_next_s c ST) as Ns. rewrite A2 in Ns.
  set (h := tp_step_start p) in *.
  assert (HE : next_hits_end c = (S j =? K)%nat).
  { unfold next_hits_end. rewrite A7, Ns. unfold ngtb. rnum. q2r. rewrite A1, A4, EK.
    destruct (Nat.leb_spec K j) as [LK|LK]; cbn [negb andb].
    - symmetry. apply Nat.eqb_neq. lia.
    - destruct (Nat.eqb_spec (Datatypes.S j) K) as [X|X].
      + subst K. rewrite S_INR. apply Rltb_true. nra.
      + apply Rltb_false. assert (LL : (S (S j) <= K)%nat) by lia. apply le_INR in LL. rewrite !S_INR in LL. nra. }
  assert (TM : next_time c = tp_start p + INR (S j) * h /\ next_step c = h).
  { unfold next_time, next_step. rewrite HE. rnum. destruct (Nat.eqb_spec (Datatypes.S j) K) as [X|X].
    - subst K. rewrite A4, A1, EK. rewrite S_INR. split; lra.
    - rewrite Ns, A1. rewrite S_INR. split; [lra|easy]. }
  destruct TM as [T1 T2].
  unfold uniform_state, now, step_size, at_end. cbn [next now_val current_step_val step_val final_val min_step_val max_step_val at_end_val].
  rewrite T1, T2, A3, A2, HE, A7. repeat split; try assumption.
  destruct (Nat.leb_spec K j), (Nat.eqb_spec (Datatypes.S j) K), (Nat.leb_spec K (S j)); try easy; lia.
Qed.
Lemma uniform_desired (p : ts_params RNum) K j (c : clock RNum) : sensible p -> uniform_state p K j c ->
  uniform_state p K j (set_desired_time_step c (tp_step_start p)).
Proof.
  intros (P1 & P2 & P3) (A1 & A2 & A3 & A4 & A5 & A6 & A7).
  unfold now, step_size, at_end in *.
  assert (ST : settled c). { unfold settled. rewrite A2, A5, A6 in *. repeat split; try lra; assumption. }
  unfold uniform_state, now, step_size, at_end, set_desired_time_step.
  rewrite (settled_after c 0 (tp_step_start p) ST (eq_sym A2)). easy.
Qed.
Theorem C46_violation_reinit_after_end : forall (p : ts_params RNum) (K : nat), sensible p -> (1 <= K)%nat ->
  tp_end p = tp_start p + INR K * tp_step_start p ->
  let k n := two_phase_loop (N:=RNum) (fun _ => None) (fun _ => false) n (setup_clocks p) in
  (forall n, (n < K)%nat -> at_end (ck_ns (k n)) = false) /\ at_end (ck_ns (k K)) = true /\
  (forall n, (n <= K)%nat -> now (ck_ns (k n)) = tp_start p + INR n * tp_step_start p) /\
  (forall n, (n <= K)%nat -> now (ck_reinit (k n)) = now (ck_ns (k n)) + tp_step_start p) /\
  at_end (ck_reinit (k (K - 1)%nat)) = true /\
  tp_end p < now (ck_reinit (k K)).
Proof.
  intros p K P K1 EK k.
  assert (G : forall n, uniform_state p K n (ck_ns (k n)) /\ uniform_state p K (S n) (ck_reinit (k n))).
  { induction n as [|n [IH1 IH2]].
    - assert (I0 : uniform_state p K 0 (ck_ns (k 0%nat))).
      { destruct (setup_sync p P) as (_ & [A B] & C). unfold k. cbn [two_phase_loop].
        unfold uniform_state. rewrite A. cbn [setup_clocks ck_ns now step_size restart ts_init_flow now_val current_step_val step_val final_val min_step_val max_step_val start_val start_step_val INR].
        unfold now, step_size. cbn. repeat split; try lra. symmetry. apply Nat.leb_gt. lia. }
      split; [exact I0|].
      assert (I1 : uniform_state p K 0 (ts_init p)).
      { destruct (setup_sync p P) as (_ & [A B] & C).
        unfold uniform_state, now, step_size, at_end. cbn. repeat split; try lra. symmetry. apply Nat.leb_gt. lia. }
      change (ck_reinit (k 0%nat)) with (next (set_desired_time_step (ts_init p) (tp_step_start p))).
      apply uniform_next; [exact P|exact EK|]. now apply uniform_desired.
    - assert (J : uniform_state p K (S n) (next (ck_ns (k n)))) by (apply uniform_next; easy).
      change (ck_ns (k (S n))) with (next (ck_ns (k n))). split; [exact J|].
      change (ck_reinit (k (S n))) with (next (set_desired_time_step (ck_reinit (k n)) (step_size (next (ck_ns (k n)))))).
      destruct J as (_ & J & _). rewrite J.
      apply uniform_next; [exact P|exact EK|]. now apply uniform_desired. }
  destruct P as (P1 & P2 & P3).
  split. { intros n L. destruct (G n) as [(_ & _ & _ & _ & _ & _ & A) _]. rewrite A. apply Nat.leb_gt. lia. }
  split. { destruct (G K) as [(_ & _ & _ & _ & _ & _ & A) _]. rewrite A. apply Nat.leb_le. lia. }
  split. { intros n L. apply (G n). }
  split. { intros n L. destruct (G n) as [(A & _) (B & _)]. rewrite A, B, S_INR. lra. }
  split. { destruct (G (K - 1)%nat) as [_ (_ & _ & _ & _ & _ & _ & A)]. rewrite A. apply Nat.leb_le. lia. }
  destruct (G K) as [_ (A & _)]. rewrite A, EK, S_INR. lra.
Qed.

(** ** The hypotheses can be met: start 1, end 13/4, step 1, BDF-2 *)
Definition q_tp : ts_params QNum := MkTP (N:=QNum) bdf_2 1%Q (13#4)%Q 1%Q 2%Q (1#10)%Q.
Definition ex_tp : ts_params RNum := MkTP (N:=RNum) bdf_2 1 (13/4) 1 2 (1/10).
Example C46_nonvacuous : sensible ex_tp /\
  let k n := two_phase_loop (N:=QNum) (fun _ => None) (fun _ => false) n (setup_clocks q_tp) in
  at_end (ck_ns (k 2%nat)) = false /\ at_end (ck_ns (k 3%nat)) = true /\ step_size (ck_ns (k 3%nat)) = (1#4)%Q /\
  old_step_size (ck_ns (k 3%nat)) = 1%Q /\ old_step_size (ck_adv (k 3%nat)) = (1#2)%Q /\
  weight_old (ck_ns (k 3%nat)) = (-5#1)%Q /\ weight_old (ck_adv (k 3%nat)) = (-6#1)%Q.
Proof.
  split; [unfold sensible, ex_tp; cbn; lra|]. cbv zeta. repeat split; vm_compute; reflexivity.
Qed.

Print Assumptions C46_advection_times.
Print Assumptions C46_advection_weights_partial.
Print Assumptions C46_violation_final_weights.
Print Assumptions C46_reinit_runs_ahead.
Print Assumptions C46_violation_reinit_after_end.
